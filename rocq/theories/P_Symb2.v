(** C89: the symbolic factorisation end to end. *)
From Coq Require Import ZifyBool ZifyNat.
From Verif Require Import Base Lib Lib2 Spec SpecMat SpecSym SpecETree SpecSymb M_Mat M_Tree M_ETree M_Sym M_Symb
  L_Mat L_Mat2 L_Mat3 L_ETree P_Post P_ETree P_Mat P_Sym P_CscTree L_Symb L_Symb4 L_Symb5 L_Symb6 L_Symb7 P_Symb.

Lemma is_perm_prefix n P : is_perm n P -> good_prefix n (map Z.of_nat P) n /\ length (map Z.of_nat P) = n /\ forall j, j < n -> Z.to_nat (map Z.of_nat P).[j] = P.[j].
Proof.
  intros IP. assert (LP : length P = n) by (destruct IP; auto).
  assert (G : forall j, j < n -> (map Z.of_nat P).[j] = Z.of_nat P.[j]).
  { intros j Hj. unfold aget. rewrite <- (map_nth Z.of_nat). apply nth_indep. rewrite map_length. lia. }
  split; [|split; [now rewrite map_length|intros j Hj; rewrite G by auto; lia]].
  intros a Ha. rewrite G by auto. pose proof (is_perm_lt n P a IP Ha). split; [lia|]. intros b Hb. rewrite G by lia. intros E.
  assert (b = a); [|lia]. apply (is_perm_inj n P); auto; lia.
Qed.

Section Trans.
Context {V : Type} {DV : Dflt V}.
Variable A : csc V.
Hypothesis MO : mat_ok A.
Hypothesis SQ : cm A = cn A.
Hypothesis Hn : 0 < cn A.
Local Notation n := (cn A).

Lemma triples_In m (cols : nat -> list (nat * V)) i c : In (i, c) (map position (triples m cols)) <-> c < m /\ In i (map fst (cols c)).
Proof.
  unfold triples, position. rewrite in_map_iff. split.
  - intros (t & E & H). apply in_flat_map in H. destruct H as (c' & Hc & H). apply in_map_iff in H. destruct H as (e & <- & He). cbn [fst] in E. injection E as E1 E2. subst c' i.
    apply in_seq in Hc. split; [lia|]. now apply in_map.
  - intros (Hc & H). apply in_map_iff in H. destruct H as (e & <- & He). exists (fst e, c, snd e). split; auto. apply in_flat_map. exists c. split; [apply in_seq; lia|].
    apply in_map_iff. exists e. auto.
Qed.

(** transposing a lower triangle *)
Lemma trans_lower P : (cst A < 0)%Z -> (forall l, P = Some l -> is_perm n l) ->
  exists F, transpose_symmetric A (match P with None => None | Some l => Some (map Z.of_nat l) end) = Ok (Some F) /\
    mat_ok F /\ cm F = n /\ cn F = n /\ (0 < cst F)%Z /\
    forall i k, below n (cp F) (ci F) i k <-> permuted_lower n (cp A) (ci A) (aget (match P with None => seq 0 n | Some l => l end)) i k.
Proof.
  intros Hs HP. destruct P as [l|].
  - specialize (HP l eq_refl). destruct (is_perm_prefix n l HP) as (GP & LP & TP).
    destruct (C83_permuted V DV A (map Z.of_nat l)) as (F & qi & E & MF & F1 & F2 & F3 & F4 & F5 & PP & T1 & _); auto; try lia.
    exists F. splits; auto; [lia|]. replace (0 <? cst A)%Z with false in T1 by lia. cbn [negb] in T1.
    assert (Q1 : forall j, j < n -> l.[j] < n /\ qi l.[j] = j) by (intros j Hj; destruct PP as [PP _]; specialize (PP j Hj); rewrite TP in PP by auto; auto).
    assert (Q2 : forall j, j < n -> qi j < n /\ l.[qi j] = j) by (intros j Hj; destruct PP as [_ PP]; specialize (PP j Hj); rewrite TP in PP by tauto; auto).
    intros i k. unfold below, permuted_lower. split; intros (H1 & H2 & H3); splits; auto.
    + assert (In (i, k) (map position (triples n (col (cp F) (ci F) (cx F))))) as H by (apply triples_In; split; auto; now apply entry_col).
      apply (Permutation_in _ T1) in H. rewrite map_map in H. apply in_map_iff in H. destruct H as ([[r j] v] & EE & H). unfold position, rename in EE. cbn [fst] in EE. injection EE as E1 E2.
      unfold tri_triples in H. apply filter_In in H. destruct H as [H Hle]. cbn beta iota in Hle. apply (in_map position) in H. change (position (r, j, v)) with (r, j) in H. apply triples_In in H.
      destruct H as (Hj & Hr). apply entry_col in Hr. assert (Hrn : r < n).
      { destruct MO as ((W1 & W2 & W3 & W4 & W5) & _). destruct Hr as (x & Hx & <-). rewrite <- SQ. apply W5. apply Nat.lt_le_trans with (cp A).[S j]; [lia|]. apply (mono_le (aget (cp A)) n); auto; lia. }
      destruct (Q2 r Hrn) as [R1 R2]. destruct (Q2 j Hj) as [J1 J2].
      assert (HH : (i = qi r /\ k = qi j) \/ (i = qi j /\ k = qi r)) by lia.
      destruct HH as [[-> ->]|[-> ->]]; rewrite R2, J2; [rewrite Nat.max_comm, Nat.min_comm|]; replace (Nat.min j r) with j by lia; replace (Nat.max j r) with r by lia; auto.
    + destruct (Q1 i ltac:(lia)) as [I1 I2]. destruct (Q1 k ltac:(lia)) as [K1 K2].
      apply (entry_col (cp F) (ci F) (cx F)). assert (In (i, k) (map position (triples n (col (cp F) (ci F) (cx F))))) as H; [|apply triples_In in H; tauto].
      apply (Permutation_in _ (Permutation_sym T1)). set (a := Nat.min l.[i] l.[k]) in *. set (b := Nat.max l.[i] l.[k]) in *.
      apply (entry_col (cp A) (ci A) (cx A)) in H3. apply in_map_iff in H3. destruct H3 as ([b' v] & E3 & H3). cbn [fst] in E3. subst b'.
      rewrite map_map. apply in_map_iff. exists (b, a, v). split.
      * unfold position, rename. cbn [fst]. assert (HH : (a = l.[i] /\ b = l.[k]) \/ (a = l.[k] /\ b = l.[i])) by lia.
        destruct HH as [[-> ->]|[-> ->]]; rewrite I2, K2; f_equal; lia.
      * unfold tri_triples. apply filter_In. split; [|lia]. unfold triples. apply in_flat_map. exists a. split; [apply in_seq; lia|]. apply in_map_iff. exists (b, v). auto.
  - destruct (C83_transpose_symmetric V DV A MO SQ Hn ltac:(lia)) as (M & E & MM & M1 & M2 & M3 & M4 & M5 & M6 & M7 & _).
    exists M. splits; auto; [lia|]. replace (0 <? cst A)%Z with false in * by lia.
    assert (HR : forall i k, k < n -> (entry (cp M) (ci M) k i <-> i <= k /\ i < n /\ entry (cp A) (ci A) i k)).
    { intros i k Hk. rewrite <- (entry_col (cp M) (ci M) (cx M)), (M7 k Hk), <- (entry_col (cp A) (ci A) (cx A)). split.
      - intros H. apply in_map_iff in H. destruct H as ([j v] & <- & H). apply filter_In in H. destruct H as [H1 H2]. apply row_of_In in H1. cbn [fst] in *.
        splits; try tauto; [lia|]. apply in_map_iff. exists (k, v). tauto.
      - intros (H1 & H2 & H3). apply in_map_iff in H3. destruct H3 as ([j v] & E1 & H3). cbn [fst] in E1. subst j. apply in_map_iff. exists (i, v). split; auto. apply filter_In. split; [now apply row_of_In|cbn [fst]; lia]. }
    assert (AS : forall j, j < n -> (seq 0 n).[j] = j) by (intros j Hj; unfold aget; rewrite seq_nth; auto).
    intros i k. unfold below, permuted_lower. split; intros (H1 & H2 & H3); splits; auto.
    + rewrite !AS by lia. rewrite Nat.min_l, Nat.max_r by lia. apply HR in H3; auto. tauto.
    + rewrite !AS in H3 by lia. rewrite Nat.min_l, Nat.max_r in H3 by lia. apply HR; auto. splits; auto; lia.
Qed.

(** transposing an upper triangle back *)
Lemma trans_upper : (0 < cst A)%Z ->
  exists B, transpose_symmetric A None = Ok (Some B) /\ mat_ok B /\ cm B = n /\ cn B = n /\ (cst B < 0)%Z /\
    forall i k, sym_adj n (cp B) (ci B) (cst B) i k <-> below n (cp A) (ci A) i k.
Proof.
  intros Hs. destruct (C83_transpose_symmetric V DV A MO SQ Hn ltac:(lia)) as (M & E & MM & M1 & M2 & M3 & M4 & M5 & M6 & M7 & _).
  exists M. splits; auto; [lia|]. replace (0 <? cst A)%Z with true in * by lia.
  assert (HR : forall i k, k < n -> i < n -> (entry (cp M) (ci M) i k <-> i <= k /\ entry (cp A) (ci A) k i)).
  { intros i k Hk Hi. rewrite <- (entry_col (cp M) (ci M) (cx M)), (M7 i Hi), <- (entry_col (cp A) (ci A) (cx A)). split.
    - intros H. apply in_map_iff in H. destruct H as ([j v] & <- & H). apply filter_In in H. destruct H as [H1 H2]. apply row_of_In in H1. cbn [fst] in *.
      splits; try tauto; [lia|]. apply in_map_iff. exists (i, v). tauto.
    - intros (H1 & H3). apply in_map_iff in H3. destruct H3 as ([j v] & E1 & H3). cbn [fst] in E1. subst j. apply in_map_iff. exists (k, v). split; auto. apply filter_In. split; [now apply row_of_In|cbn [fst]; lia]. }
  intros i k. rewrite sym_adj_lower by lia. unfold below. split; intros (H1 & H2 & H3); splits; auto; apply HR in H3 || apply HR; auto; try tauto; try lia. split; auto. lia.
Qed.
End Trans.

Lemma etree_rooted A n par : length par = n -> (forall v, v < n -> etree_parent A n v par.[v]) -> forall u, u < n -> rooted n par u.
Proof. exact (C36_forest A n par). Qed.

Lemma counts_iff n (P Q : nat -> Prop) z : (forall u, u < n -> (P u <-> Q u)) -> counts n P z -> counts n Q z.
Proof.
  intros H (l & N & Hl & E). exists l. splits; auto. intros u. rewrite Hl. split; intros [H1 H2]; (split; auto); apply H; auto.
Qed.

Lemma factor_entry_iff (A B : nat -> nat -> Prop) : (forall i k, A i k <-> B i k) -> forall c u, factor_entry A c u <-> factor_entry B c u.
Proof.
  intros H c u. unfold factor_entry. split; (intros [E|[E F]]; [auto|right; split; auto]); revert F; apply fill_iff2; auto. intros; symmetry; apply H.
Qed.

Lemma exact_pattern_iff n (A B : nat -> nat -> Prop) Lp Li : (forall i k, A i k <-> B i k) -> exact_pattern n A Lp Li -> exact_pattern n B Lp Li.
Proof.
  intros H (H1 & H2 & H3 & H4). unfold exact_pattern. splits; auto. intros c Hc. destruct (H4 c Hc) as (K1 & K2 & K3 & K4 & K5). splits; auto.
  intros u. rewrite K5. now rewrite (factor_entry_iff A B H c u).
Qed.

(** renaming carries counts over *)
Lemma counts_rename n (q qi : nat -> nat) (P Q : nat -> Prop) z : perm_pair n q qi -> (forall u, u < n -> (Q u <-> P (q u))) -> counts n P z -> counts n Q z.
Proof.
  intros [P1 P2] H (l & N & Hl & E). exists (map qi l). split; [|split; [|now rewrite map_length]].
  - apply NoDup_map_inv with (f := q). rewrite map_map. replace (map (fun x => q (qi x)) l) with l; auto.
    rewrite <- (map_id l) at 1. apply map_ext_in. intros a Ha. apply Hl in Ha. destruct (P2 a) as [_ ->]; tauto.
  - intros u. rewrite in_map_iff. split.
    + intros (x & <- & Hx). apply Hl in Hx. destruct Hx as [Hx Px]. destruct (P2 x Hx) as [K1 K2]. split; auto. apply H; auto. now rewrite K2.
    + intros (Hu & Qu). destruct (P1 u Hu) as [K1 K2]. exists (q u). split; auto. apply Hl. split; auto. now apply H.
Qed.

Lemma reorder_array_full {X} {DX : Dflt X} n (arr ws : list X) perm : is_perm n perm -> length arr = n -> length ws = n ->
  exists arr' ws', reorder_array n arr perm ws = Ok (arr', ws') /\ length arr' = n /\ length ws' = n /\ forall i, i < n -> arr'.[i] = arr.[perm.[i]].
Proof.
  intros HP La Lw. assert (LP : length perm = n) by apply HP.
  assert (K : wp (reorder_array n arr perm ws) (fun '(a', w') => length a' = n /\ forall i, i < n -> a'.[i] = arr.[perm.[i]])).
  { apply reorder_array_wp; auto; try lia; [intros i Hi; pose proof (is_perm_lt n perm i HP Hi); lia|].
    intros a' w' La' Ha' _. split; auto. lia. }
  assert (K2 : Lib2.pc (reorder_array n arr perm ws) (fun '(a', w') => length w' = n)).
  { unfold reorder_array. apply pc_bind. apply (pc_mono _ (fun w' => length w' = n)).
    - apply pc_for; auto. intros i s Hs. apply pc_bind. apply pc_any. intros x. apply pc_bind. apply pc_any. intros v.
      apply pc_wr. congruence.
    - intros w' Hw'. apply pc_bind. apply pc_any. intros a'. apply pc_ret. auto. }
  apply wp_ok in K. destruct K as ([a' w'] & E1 & K1 & K3). specialize (K2 _ E1). exists a', w'. auto.
Qed.

(** For every lower triangle (and every permutation METIS may return) the analysis succeeds.  Its permutation
    is METIS's followed by a post-order of the elimination tree; everything else describes the Cholesky factor of
    the permuted matrix exactly. *)
Theorem C89_symbolic : forall (V : Type) (DV : Dflt V) (A : csc V) metis,
  mat_ok A -> cm A = cn A -> 0 < cn A -> (cst A < 0)%Z -> (forall P, metis = Some P -> is_perm (cn A) P) ->
  let n := cn A in
  exists l, build_symbolic A metis = Ok l /\
    is_perm n (lfPerm l) /\ length (lfIperm l) = n /\ (forall i, i < n -> (lfIperm l).[(lfPerm l).[i]] = i) /\
    is_perm n (lfPost l) /\ length (lfIpost l) = n /\ (forall i, i < n -> (lfIpost l).[(lfPost l).[i]] = i) /\
    (forall i, i < n -> (lfPerm l).[i] = match metis with None => (lfPost l).[i] | Some P => P.[(lfPost l).[i]] end) /\
    let B := permuted_lower n (cp A) (ci A) (aget (lfPerm l)) in
    length (lfParent l) = n /\ (forall v, v < n -> etree_parent B n v (lfParent l).[v]) /\
    (forall i, i < n -> exists a, a <= i /\ forall m, m < n -> (desc n (lfParent l) m i <-> a <= m <= i)) /\
    length (lfCounts l) = n /\ (forall c, c < n -> counts n (factor_entry B c) (lfCounts l).[c]) /\
    exact_pattern n B (lfLp l) (lfLi l).
Proof.
  intros V DV A metis MO SQ Hn Hs HM n. unfold build_symbolic. cbv zeta. fold n.
  set (perm0 := match metis with None => seq 0 n | Some P => P end).
  assert (IP0 : is_perm n perm0).
  { unfold perm0. destruct metis as [P|]; [now apply HM|]. apply is_perm_intro; [apply seq_length|apply seq_NoDup|]. intros x Hx. apply in_seq in Hx. lia. }
  destruct (trans_lower A MO SQ Hn metis Hs HM) as (F & EF & MF & F1 & F2 & F3 & F4). fold perm0 n in F1, F2, F4.
  unfold deref at 1. rewrite EF. cbn [bind]. clear EF.
  destruct (trans_upper F MF ltac:(lia) ltac:(lia) F3) as (B0 & EB & MB & B1 & B2 & B3 & B4). rewrite F2 in B1, B2, B4.
  unfold deref at 1. rewrite EB. cbn [bind]. clear EB. set (A1 := permuted_lower n (cp A) (ci A) (aget perm0)) in *.
  assert (WB : wf_mat n n (cp B0) (ci B0)) by (destruct MB as [MB _]; rewrite B1, B2 in MB; auto).
  assert (WF : wf_mat n n (cp F) (ci F)) by (destruct MF as [MF' _]; rewrite F1, F2 in MF'; auto).
  rewrite F1, F2.
  destruct (C36_compute_etree_sym n n (cp F) (ci F) (cst F) (repeat 0%Z n)) as (par & EE & P1 & P2); auto; [now apply wf_mat_rows in WF|apply repeat_length|].
  rewrite EE. cbn [bind]. clear EE.
  assert (EB : forall v, v < n -> etree_parent (sym_adj n (cp B0) (ci B0) (cst B0)) n v par.[v]).
  { intros v Hv. apply (etree_parent_iff (below n (cp F) (ci F))); auto. intros i k. symmetry. apply B4. }
  assert (EA : forall v, v < n -> etree_parent A1 n v par.[v]) by (intros v Hv; apply (etree_parent_iff (below n (cp F) (ci F))); auto).
  pose proof (C36_forest _ n par P1 EA) as RO. pose proof (etree_forest A1 n par P1 EA) as LA.
  destruct (C37_forest n par None (repeat 0 n)) as (post1 & E1 & IP1 & IV1 & _); try rewrite repeat_length; auto; try lia; [discriminate|].
  rewrite E1. cbn [bind]. rewrite Nat.eqb_refl. cbn [negb].
  assert (LP1 : n <= length post1) by (destruct IP1 as [I1 _]; rewrite firstn_length in I1; lia).
  rewrite B1. destruct (C86_counts n (cp B0) (ci B0) (cst B0) par post1 None (repeat 0%Z n) (repeat 0%Z n) (repeat 0%Z n)) as (RC' & CC & F' & L' & EC & _ & LC & CC1 & _);
    try rewrite repeat_length; auto; try lia; [discriminate|]. rewrite repeat_length in LC.
  rewrite EC. cbn [bind]. clear EC.
  destruct (C37_forest n par (Some CC) post1) as (post & E2 & IP2 & IV2 & _); auto; try lia; [intros W EW; injection EW as <-; lia|].
  destruct (C37_post_order n par (Some CC) post1) as (k' & post' & E2' & _ & LPP & _); auto; try lia; [intros W EW; injection EW as <-; lia|].
  rewrite E2 in E2'. injection E2' as <- <-.
  assert (LP1' : length post1 = n).
  { destruct (C37_post_order n par None (repeat 0 n)) as (k' & post' & E1' & _ & LPP' & _); try rewrite repeat_length; auto; try lia; [discriminate|].
    rewrite E1 in E1'. injection E1' as <- <-. now rewrite repeat_length in LPP'. }
  rewrite E2. cbn [bind]. rewrite Nat.eqb_refl. cbn [negb].
  rewrite LP1' in LPP. rewrite <- LPP in IP2 at 2. rewrite firstn_all in IP2.
  assert (PB : forall i, i < n -> post.[i] < n) by (intros; now apply (is_perm_lt n)).
  assert (LP0 : length perm0 = n) by (destruct IP0; auto).
  destruct (reorder_array_full n perm0 (repeat 0 n) post IP2 LP0 (repeat_length _ _)) as (perm & wsp & EP & LPM & _ & PM). rewrite EP. cbn [bind]. clear EP.
  destruct (reorder_array_full n CC (repeat 0%Z n) post IP2 LC (repeat_length _ _)) as (cc & ws & EC & LCC & LWS & CCC). rewrite EC. cbn [bind]. clear EC.
  destruct (C35_inv_perm_inverts n post (repeat 0 n) IP2 (repeat_length _ _)) as (ipost & EI & IPI & I1 & I2). rewrite EI. cbn [bind]. clear EI.
  assert (IPM : is_perm n perm).
  { apply is_perm_intro; auto.
    - apply NoDup_nth with (d := 0). intros i j Hi Hj E. rewrite LPM in *. change (perm.[i] = perm.[j]) in E. rewrite !PM in E by auto.
      apply (is_perm_inj n post); auto. apply (is_perm_inj n perm0); auto.
    - intros x Hx. apply In_aget in Hx. destruct Hx as (i & Hi & <-). rewrite PM by lia. apply (is_perm_lt n); auto. apply PB. lia. }
  destruct (C35_inv_perm_inverts n perm (repeat 0 n) IPM (repeat_length _ _)) as (iperm & EI & IPJ & J1 & J2). rewrite EI. cbn [bind]. clear EI.
  assert (LI : length ipost = n) by (destruct IPI; auto).
  destruct (C65_reordered_tree n par (Some CC) post1 ipost ws post) as (q & EQ & Q1 & Q2 & Q3); auto; try lia.
  { intros W EW. injection EW as <-. lia. }
  { intros u Hu. specialize (LA u Hu). lia. }
  rewrite EQ. cbn [bind].
  destruct (trans_lower A MO SQ Hn (Some perm) Hs) as (G & EG & MG & G1 & G2 & G3 & G4); [intros l El; injection El as <-; auto|].
  rewrite EG. cbn [deref bind]. clear EG. fold n in G1, G2, G4. set (B := permuted_lower n (cp A) (ci A) (aget perm)) in *.
  assert (WG : wf_mat n n (cp G) (ci G)) by (destruct MG as [MG _]; rewrite G1, G2 in MG; auto).
  assert (LQ : length q = n).
  { destruct (reorder_tree_wp n par post ipost ws) as (q' & EQ' & LQ & _); auto; try lia.
    { intros i Hi. specialize (LA i Hi). unfold EMPTY. destruct LA; [auto|right; lia]. }
    rewrite EQ in EQ'. injection EQ' as <-. lia. }
  assert (PP : perm_pair n (aget post) (aget ipost)).
  { split; [intros j Hj; split; auto|]. intros i Hi. split; [apply (is_perm_lt n); auto|]. apply I2. auto. }
  assert (OA1 : ordered n A1) by (intros i k (H1 & H2 & _); lia). assert (OB : ordered n B) by (intros i k (H1 & H2 & _); lia).
  assert (HAB : forall i k, i < n -> k < n -> (B i k \/ B k i <-> A1 post.[i] post.[k] \/ A1 post.[k] post.[i])).
  { intros i k Hi Hk. unfold B, A1, permuted_lower. rewrite !PM by auto. rewrite (Nat.min_comm perm0.[post.[k]]), (Nat.max_comm perm0.[post.[k]]).
    pose proof (PB i Hi). pose proof (PB k Hk).
    destruct (Nat.eq_dec i k) as [->|Hne]; [split; intros [HH|HH]; lia|]. assert (post.[i] <> post.[k]) by (intros HH; apply Hne, (is_perm_inj n post); auto).
    split; (intros [(_ & _ & HH)|(_ & _ & HH)]); [destruct (Nat.lt_ge_cases post.[i] post.[k])|destruct (Nat.lt_ge_cases post.[i] post.[k])|destruct (Nat.lt_ge_cases i k)|destruct (Nat.lt_ge_cases i k)];
      solve [left; repeat split; auto; lia|right; repeat split; auto; lia]. }
  assert (EQB : forall v, v < n -> etree_parent B n v q.[v]) by (apply (relabel_etree n A1 B par q (aget post) (aget ipost)); auto).
  assert (FAB : forall x y, x < n -> y < n -> (factor_entry B x y <-> factor_entry A1 post.[x] post.[y])).
  { intros x y Hx Hy. unfold factor_entry. pose proof (relabel_fill n A1 B par q (aget post) (aget ipost) OA1 OB LA Q3 PP HAB Q1 EA x y Hx Hy) as RF. rewrite RF.
    split; (intros [E|E]; [|auto]); left; [now subst|apply (is_perm_inj n post); auto]. }
  assert (CB : forall c, c < n -> counts n (factor_entry B c) cc.[c]).
  { intros c Hc. rewrite CCC by auto. apply (counts_rename n (aget post) (aget ipost) (factor_entry A1 post.[c])); auto.
    specialize (CC1 post.[c] (PB c Hc)). revert CC1. apply counts_iff. intros u Hu. apply factor_entry_iff. intros i k. rewrite B4. apply F4. }
  destruct (C88_pattern n (cp G) (ci G) q cc (repeat 0 n)) as (Lp & Li & acc & EL & XP & _); try rewrite repeat_length; auto; try lia.
  { intros v Hv. apply (etree_parent_iff B); auto. intros i k. symmetry. apply G4. }
  { intros c Hc. specialize (CB c Hc). revert CB. apply counts_iff. intros u Hu. apply factor_entry_iff. intros i k. symmetry. apply G4. }
  rewrite EL. cbn [bind]. clear EL. eexists. split; [reflexivity|]. cbn [lfPerm lfIperm lfPost lfIpost lfParent lfCounts lfLp lfLi]. fold B.
  split; [auto|]. split; [destruct IPJ; auto|]. split; [auto|]. split; [auto|]. split; [auto|]. split; [auto|]. split.
  { intros i Hi. rewrite PM by auto. unfold perm0. destruct metis; auto. unfold aget. rewrite seq_nth; auto. apply PB; auto. }
  split; [auto|]. split; [auto|]. split.
  { intros i Hi. destruct (IV2 i Hi) as (a & Ha & Hm). exists a. split; auto. intros m Hmn.
    rewrite <- (Hm m Hmn). apply (relabel_desc n par q (aget post) (aget ipost)); auto. }
  split; [auto|]. split; [auto|]. revert XP. apply exact_pattern_iff. auto.
Qed.
Print Assumptions C89_symbolic.

(** a matrix not flagged symmetric, or not square: a null pointer is dereferenced *)
Theorem C89_refused : forall (V : Type) (DV : Dflt V) (A : csc V) metis, cst A = 0%Z \/ cm A <> cn A -> build_symbolic A metis = Err OOB.
Proof. intros V DV A metis H. unfold build_symbolic. cbv zeta. rewrite C83_refused by auto. reflexivity. Qed.
Print Assumptions C89_refused.

Lemma roots_lower m n Ap Ai stype P0 : length P0 = n -> (stype < 0)%Z -> n <= m ->
  exists par, compute_etree m n Ap Ai stype P0 = Ok (false, par) /\ length par = n /\ forall v, v < n -> par.[v] = (-1)%Z.
Proof.
  intros HL Hs Hm. unfold compute_etree. destruct (Z.eqb_spec stype 0); [lia|]. destruct (Z.ltb_spec 0 stype); [lia|].
  pose proof (L_ETree2.init_wp n P0 HL m Hm) as G. apply wp_ok in G. destruct G as (st & E & H0). rewrite E. cbn [bind].
  exists (fst st). split; auto. destruct (H0 (fun _ _ => False) ltac:(tauto)) as (H2 & _ & _ & H1). split; auto. intros v Hv. apply H1. lia.
Qed.

(** With no counts the array of rows is empty: the first diagonal entry is written behind it. *)
Lemma build_L_pattern_empty n Ap Ai cc par acc : 0 < n -> wf_mat n n Ap Ai -> n <= length cc -> 0 < length acc ->
  (forall c, c < n -> cc.[c] = 0%Z) -> build_L_pattern n Ap Ai cc par acc = Err OOB.
Proof.
  intros Hn W LC LA HC. unfold build_L_pattern.
  assert (G : wp (for_ 1 (n + 1) (fun l Lp => a <- rd Lp (l - 1) ;; c <- rd cc (l - 1) ;; if (c <? 0)%Z then Err OOB else wr Lp l (a + Z.to_nat c)) (repeat 0 (n + 1)))
     (fun Lp => length Lp = n + 1 /\ forall c, c < n + 1 -> Lp.[c] = 0)).
  { apply (wp_for (fun l Lp => length Lp = n + 1 /\ forall c, c < n + 1 -> Lp.[c] = 0)); [lia| | |auto].
    - split; [apply repeat_length|]. intros c Hc. now rewrite aget_repeat.
    - intros l Lp Hl (L1 & L2). wp1. wp1; [lia|]. wp1. wp1; [lia|]. rewrite HC, L2 by lia. cbn [Z.ltb Z.compare]. wp1; [lia|]. rewrite upd_length. split; auto.
      intros c Hc. destruct (Nat.eq_dec c l) as [->|]; [now rewrite aget_upd_eq by lia|rewrite aget_upd_ne by lia; auto]. }
  apply wp_ok in G. destruct G as (Lp & -> & L1 & L2). cbn [bind]. rewrite (rd_ok Lp n) by lia. cbn [bind]. rewrite (L2 n) by lia. cbn [repeat].
  rewrite for_step by lia. cbn beta iota. unfold compute_cost_per_col. destruct W as (W1 & W2 & W3 & W4 & W5).
  assert (E : exists w, ereach n Ap Ai 0 par (repeat 0%Z n) (repeat 0%Z n) = Ok (n, repeat 0%Z n, w)).
  { unfold ereach, cs_mark. rewrite rd_ok by (rewrite repeat_length; auto). cbn [bind]. rewrite aget_repeat by auto. unfold wr. rewrite repeat_length.
    replace (0 <? n) with true by lia. cbn [bind]. set (w1 := upd (repeat 0%Z n) 0 (CS_FLIP 0)). assert (LW : length w1 = n) by (unfold w1; now rewrite upd_length, repeat_length).
    rewrite !rd_ok by lia. cbn [bind].
    assert (G : wp (for_ Ap.[0] Ap.[1] (fun p '(top, s, w) => i <- rd Ai p ;; if 0 <? i then Ok (top, s, w)
              else '(len, s, w) <- reach_path n par i s w ;; '(top, s) <- push_path len top s ;; Ok (top, s, w)) (n, repeat 0%Z n, w1)) (fun r => r = (n, repeat 0%Z n, w1))).
    { assert (M : Ap.[1] <= length Ai) by (apply Nat.le_trans with Ap.[n]; auto; apply (mono_le (aget Ap) n); auto; lia).
      apply (wp_for (fun _ r => r = (n, repeat 0%Z n, w1))); [apply W3; lia|auto| |auto]. intros p r Hp ->. wp1. wp1; [lia|]. destruct (Nat.ltb_spec 0 Ai.[p]); [reflexivity|].
      replace Ai.[p] with 0 by lia. unfold reach_path. cbn [while_ Z.of_nat]. unfold rdZ. cbn [Z.ltb Z.compare Z.to_nat]. rewrite rd_ok by lia. unfold w1 at 1. rewrite aget_upd_eq by (rewrite repeat_length; lia). reflexivity. }
    apply wp_ok in G. destruct G as (r & -> & ->). cbn [bind]. rewrite for_nil by lia. cbn [bind]. rewrite rd_ok by lia. cbn [bind]. replace (0 <? length w1) with true by lia. cbn [bind]. eauto. }
  destruct E as (w & ->). cbn [bind]. rewrite for_nil by lia. cbn [bind]. rewrite !rd_ok by lia. cbn [bind]. unfold wr at 1. replace (0 <? length acc) with true by lia. cbn [bind].
  rewrite L2 by lia. reflexivity.
Qed.

(** an upper triangle (stype > 0) passes every test; compute_etree and row_col_counts_symmetric refuse it,
    but their flags are ignored: the call writes out of bounds *)
Theorem C89_upper_out_of_bounds : forall (V : Type) (DV : Dflt V) (A : csc V) metis,
  mat_ok A -> cm A = cn A -> 0 < cn A -> (0 < cst A)%Z -> (forall P, metis = Some P -> is_perm (cn A) P) -> build_symbolic A metis = Err OOB.
Proof.
  intros V DV A metis MO SQ Hn Hs HM. unfold build_symbolic. cbv zeta. set (n := cn A) in *.
  set (perm0 := match metis with None => seq 0 n | Some P => P end).
  assert (IP0 : is_perm n perm0).
  { unfold perm0. destruct metis as [P|]; [now apply HM|]. apply is_perm_intro; [apply seq_length|apply seq_NoDup|]. intros x Hx. apply in_seq in Hx. lia. }
  assert (TR : forall P : option (list nat), (forall l, P = Some l -> is_perm n l) -> exists F, transpose_symmetric A (match P with None => None | Some l => Some (map Z.of_nat l) end) = Ok (Some F) /\
    mat_ok F /\ cm F = n /\ cn F = n /\ (cst F < 0)%Z).
  { intros [l|] HP.
    - destruct (is_perm_prefix n l (HP l eq_refl)) as (GP & LP & TP). unfold n in *.
      destruct (C83_permuted V DV A (map Z.of_nat l)) as (F & qi & E & MF & F1 & F2 & F3 & _); auto; try lia. exists F. splits; auto. lia.
    - destruct (C83_transpose_symmetric V DV A MO SQ Hn ltac:(lia)) as (M & E & MM & M1 & M2 & M3 & _). exists M. splits; auto. lia. }
  destruct (TR metis HM) as (F & EF & MF & F1 & F2 & F3). unfold deref at 1. rewrite EF. cbn [bind]. clear EF.
  destruct (C83_transpose_symmetric V DV F MF ltac:(lia) ltac:(lia) ltac:(lia)) as (B0 & EB & MB & B1 & B2 & B3 & _).
  unfold deref at 1. rewrite EB. cbn [bind]. clear EB. rewrite F1, F2.
  destruct (roots_lower n n (cp F) (ci F) (cst F) (repeat 0%Z n) (repeat_length _ _) F3 (le_n _)) as (par & EE & P1 & P2). rewrite EE. cbn [bind]. clear EE.
  assert (RO : forall u, u < n -> rooted n par u) by (intros u Hu; exists u; split; [apply desc_refl|auto]).
  destruct (C37_forest n par None (repeat 0 n)) as (post1 & E1 & IP1 & _); try rewrite repeat_length; auto; try lia; [discriminate|].
  assert (LP1 : length post1 = n).
  { destruct (C37_post_order n par None (repeat 0 n)) as (k' & post' & E1' & _ & LPP' & _); try rewrite repeat_length; auto; try lia; [discriminate|].
    rewrite E1 in E1'. injection E1' as <- <-. now rewrite repeat_length in LPP'. }
  rewrite E1. cbn [bind]. rewrite Nat.eqb_refl. cbn [negb]. clear E1. rewrite C86_refused by lia. cbn [bind]. set (CC := repeat 0%Z n).
  assert (LC : length CC = n) by apply repeat_length.
  destruct (C37_forest n par (Some CC) post1) as (post & E2 & IP2 & _); auto; try lia; [intros W EW; injection EW as <-; lia|].
  destruct (C37_post_order n par (Some CC) post1) as (k' & post' & E2' & _ & LPP & _); auto; try lia; [intros W EW; injection EW as <-; lia|].
  rewrite E2 in E2'. injection E2' as <- <-. rewrite E2. cbn [bind]. rewrite Nat.eqb_refl. cbn [negb].
  rewrite LP1 in LPP. rewrite <- LPP in IP2 at 2. rewrite firstn_all in IP2.
  assert (PB : forall i, i < n -> post.[i] < n) by (intros; now apply (is_perm_lt n)).
  assert (LP0 : length perm0 = n) by (destruct IP0; auto).
  destruct (reorder_array_full n perm0 (repeat 0 n) post IP2 LP0 (repeat_length _ _)) as (perm & wsp & EP & LPM & _ & PM). rewrite EP. cbn [bind]. clear EP.
  destruct (reorder_array_full n CC CC post IP2 LC LC) as (cc & ws & EC & LCC & LWS & CCC). rewrite EC. cbn [bind]. clear EC.
  destruct (C35_inv_perm_inverts n post (repeat 0 n) IP2 (repeat_length _ _)) as (ipost & EI & IPI & I1 & I2). rewrite EI. cbn [bind]. clear EI.
  assert (IPM : is_perm n perm).
  { apply is_perm_intro; auto.
    - apply NoDup_nth with (d := 0). intros i j Hi Hj E. rewrite LPM in *. change (perm.[i] = perm.[j]) in E. rewrite !PM in E by auto.
      apply (is_perm_inj n post); auto. apply (is_perm_inj n perm0); auto.
    - intros x Hx. apply In_aget in Hx. destruct Hx as (i & Hi & <-). rewrite PM by lia. apply (is_perm_lt n); auto. apply PB. lia. }
  destruct (C35_inv_perm_inverts n perm (repeat 0 n) IPM (repeat_length _ _)) as (iperm & EI & _). rewrite EI. cbn [bind]. clear EI.
  assert (LI : length ipost = n) by (destruct IPI; auto).
  destruct (reorder_tree_wp n par post ipost ws) as (q & EQ & _); try lia; auto.
  rewrite EQ. cbn [bind]. clear EQ.
  destruct (TR (Some perm)) as (G & EG & MG & G1 & G2 & G3); [intros l El; injection El as <-; auto|]. rewrite EG. cbn [deref bind]. clear EG.
  rewrite build_L_pattern_empty; auto; try lia.
  - destruct MG as [MG _]. rewrite G1, G2 in MG. auto.
  - rewrite repeat_length. lia.
  - intros c Hc. rewrite CCC by auto. unfold CC. apply aget_repeat. apply PB. auto.
Qed.
Print Assumptions C89_upper_out_of_bounds.

Example C89_case : mat_ok symbA /\ cm symbA = cn symbA /\ (cst symbA < 0)%Z /\
  exists l, build_symbolic symbA (Some [4;2;0;1;3]) = Ok l /\ lfPerm l = [4;2;0;1;3] /\ lfParent l = [1;2;4;4;-1]%Z /\
    lfCounts l = [2;2;2;2;1]%Z /\ lfLp l = [0;2;4;6;8;9] /\ lfLi l = [0;1; 1;2; 2;4; 3;4; 4].
Proof.
  split; [|split; [reflexivity|split; [reflexivity|eexists; splits; vm_compute; reflexivity]]].
  split; [|split; [vm_compute; lia|intros _; vm_compute; lia]]. split; [simpl; lia|]. split; [reflexivity|]. split; [|split; [vm_compute; lia|]].
  - intros k Hk. change (k < 5) in Hk. do 5 (destruct k as [|k]; [vm_compute; lia|]). lia.
  - intros k Hk. change (k < 9) in Hk. do 9 (destruct k as [|k]; [vm_compute; lia|]). lia.
Qed.
