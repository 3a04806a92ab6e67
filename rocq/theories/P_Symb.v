(** C86-C88: row and column counts, the reach of a row and the pattern of the Cholesky factor. *)
From Coq Require Import ZifyBool ZifyNat.
From Verif Require Import Base Lib Lib2 Spec SpecMat SpecSym SpecETree SpecSymb M_Mat M_ETree M_Symb
  L_Mat L_ETree P_Post P_ETree P_CscTree L_Symb L_Symb4 L_Symb5 L_Symb6 L_Symb7.

(** * C86 *)

Lemma sym_adj_lower n Ap Ai stype i k : (stype < 0)%Z -> (sym_adj n Ap Ai stype i k <-> i < k /\ k < n /\ entry Ap Ai i k).
Proof. intros H. unfold sym_adj. now replace (stype <? 0)%Z with true by lia. Qed.

Lemma counts_zsum n (p : nat -> bool) (P : nat -> Prop) : (forall u, u < n -> (p u = true <-> P u)) -> counts n P (zsum n (fun u => b2z (p u))).
Proof.
  intros H. exists (filter p (seq 0 n)). split; [apply NoDup_filter, seq_NoDup|]. split; [|apply zsum_count].
  intros u. rewrite filter_In, in_seq. split; intros [H1 H2]; (split; [lia|]); apply H; auto; lia.
Qed.

(** For every lower triangle stored by columns, its elimination tree and any post-order of the tree: the
    counts are those of the factor, the diagonal included. *)
Theorem C86_counts : forall n Ap Ai stype par post RC CC F0 L0,
  wf_mat n n Ap Ai -> (stype < 0)%Z -> length par = n -> (forall v, v < n -> etree_parent (sym_adj n Ap Ai stype) n v par.[v]) ->
  n <= length post -> is_perm n (firstn n post) ->
  (forall i, i < n -> exists a, a <= i /\ forall m, m < n -> (desc n par post.[m] post.[i] <-> a <= m <= i)) ->
  (forall R, RC = Some R -> n <= length R) -> n <= length CC -> n <= length F0 -> n <= length L0 ->
  exists RC' CC' F L, row_col_counts_symmetric n Ap Ai stype par post RC CC F0 L0 = Ok (true, (RC', CC', F, L)) /\
    (RC' = None <-> RC = None) /\ length CC' = length CC /\
    (forall j, j < n -> counts n (factor_entry (sym_adj n Ap Ai stype) j) CC'.[j]) /\
    (forall R, RC' = Some R -> forall u, u < n -> counts n (fun j => factor_entry (sym_adj n Ap Ai stype) j u) R.[u]).
Proof.
  intros n Ap Ai stype par post RC CC F0 L0 W Hs LP EP LQ IP HI HR HC HF HL.
  pose proof (wf_mat_rows _ _ _ _ W) as (WR1 & WR2). set (A := sym_adj n Ap Ai stype) in *.
  assert (OA : ordered n A) by (intros i k H; apply sym_adj_lower in H; auto; lia).
  assert (LA : larger n par) by (exact (etree_forest A n par LP EP)).
  destruct (etree_tree n A par OA LA EP) as [AN CO].
  destruct (numbered_of_post n par post ltac:(lia) LQ LA IP HI) as (pos & f & NF).
  assert (SUB : forall x u, x < n -> u < n -> (sub pos f x u = true <-> desc n par x u)).
  { intros x u Hx Hu. destruct NF as (_ & _ & _ & _ & N5). rewrite (N5 u x Hu Hx). unfold sub. lia. }
  assert (BAi : forall x u, x < n -> edg Ap Ai x u -> u < n).
  { intros x u Hx (k & Hk & <-). destruct W as (W1 & W2 & W3 & W4 & W5). apply W5.
    apply Nat.lt_le_trans with Ap.[S x]; [lia|]. apply (mono_le (aget Ap) n); auto; lia. }
  assert (ANC : forall x u, x < n -> x < u -> edg Ap Ai x u -> sub pos f x u = true).
  { intros x u Hx Hu E. assert (u < n) by eauto. apply SUB; auto. apply AN, sym_adj_lower; auto. }
  assert (BEL : forall c u, c < n -> u < n -> par.[c] = Z.of_nat u -> exists x, x < n /\ x < u /\ sub pos f x c = true /\ edg Ap Ai x u).
  { intros c u Hc Hu E. destruct (CO c u Hc Hu E) as (x & Dx & Ax). pose proof (OA _ _ Ax). apply sym_adj_lower in Ax; auto. exists x. split; [lia|]. split; [lia|]. split; [apply SUB; auto; lia|tauto]. }
  assert (FE : forall E u j, edges_upto n pos Ap Ai n E -> u < n -> j < n -> (inT pos f E u j = true <-> factor_entry A j u)).
  { intros E u j HE Hu Hj. rewrite (inT_iff n par post pos f NF Ap Ai WR1 WR2 BAi ANC BEL E u j HE Hu Hj). unfold factor_entry. split; (intros [H|H]; [auto|right]).
    - destruct H as (H1 & H2 & x & H3 & H4 & H5 & H6). split; auto. apply (tree_fill n A par OA LA CO); auto. exists x. split; auto. apply sym_adj_lower; auto.
    - destruct H as (H1 & H2). destruct (fill_tree n A par OA LA AN _ _ H2 H1) as (_ & H3 & x & H4 & H5). pose proof (OA _ _ H5). apply sym_adj_lower in H5; auto. split; auto. split; auto. exists x. repeat split; try lia; tauto. }
  assert (G : wp (row_col_counts_symmetric n Ap Ai stype par post RC CC F0 L0) (fun r => exists RC' CC' F L, r = (true, (RC', CC', F, L)) /\
    (RC' = None <-> RC = None) /\ length CC' = length CC /\
    (forall j, j < n -> counts n (factor_entry A j) CC'.[j]) /\
    (forall R, RC' = Some R -> forall u, u < n -> counts n (fun j => factor_entry A j u) R.[u]))).
  { apply (row_col_counts_wp n par post pos f NF Ap Ai WR1 WR2 BAi ANC BEL); auto.
    intros E RC' CC' F L HE H1 H2 H3 H4 _. exists RC', CC', F, L. split; [reflexivity|]. split; [auto|]. split; [auto|]. split.
    - intros j Hj. rewrite H3 by auto. apply (counts_zsum n (fun u => inT pos f E u j)). intros u Hu. now apply FE.
    - intros R ER u Hu. rewrite (H4 R ER u Hu). apply (counts_zsum n (fun j => inT pos f E u j)). intros j Hj. now apply FE. }
  apply wp_ok in G. destruct G as (r & E & RC' & CC' & F & L & -> & G). exists RC', CC', F, L. auto.
Qed.
Print Assumptions C86_counts.

(** the other storage is refused *)
Theorem C86_refused : forall n Ap Ai stype par post RC CC F0 L0, (0 <= stype)%Z ->
  row_col_counts_symmetric n Ap Ai stype par post RC CC F0 L0 = Ok (false, (RC, CC, F0, L0)).
Proof. intros. unfold row_col_counts_symmetric. now replace (0 <=? stype)%Z with true by lia. Qed.
Print Assumptions C86_refused.

(** columns {0,2,3} {1,3} {2,4} {3} {4}: fill (3,2), (4,3) *)
Example C86_case : let Ap := [0;3;5;7;8;9] in let Ai := [0;2;3;1;3;2;4;3;4] in let par := [2;3;3;4;-1]%Z in
  wf_mat 5 5 Ap Ai /\ compute_etree 5 5 [0;1;2;4;7;9] [0;1;0;2;0;1;3;2;4] 1%Z [0;0;0;0;0]%Z = Ok (true, par) /\
  row_col_counts_symmetric 5 Ap Ai (-1)%Z par [0;2;1;3;4] (Some [0;0;0;0;0]%Z) [0;0;0;0;0]%Z [0;0;0;0;0]%Z [0;0;0;0;0]%Z =
    Ok (true, (Some [1;1;2;4;3]%Z, [3;2;3;2;1]%Z, [0;2;0;0;0]%Z, [3;2;2;1;0]%Z)).
Proof.
  cbv zeta. split; [|split; vm_compute; reflexivity]. unfold wf_mat. split; [simpl; lia|]. split; [reflexivity|]. split; [|split; [vm_compute; lia|]].
  - intros k Hk. do 5 (destruct k as [|k]; [vm_compute; lia|]). lia.
  - intros k Hk. change (k < 9) in Hk. do 9 (destruct k as [|k]; [vm_compute; lia|]). lia.
Qed.

(** * C87 *)

(** ereach gives row [k] of the factor: s[top..n) lists exactly the columns left of the diagonal in which the row
    has an entry, each once, every column before its parent; the marks are removed. *)
Theorem C87_ereach : forall n Ap Ai par k s w,
  wf_mat n n Ap Ai -> n <= length par -> (forall v, v < n -> etree_parent (below n Ap Ai) n v par.[v]) -> k < n ->
  n <= length s -> n <= length w -> (forall x, x < n -> (0 <= w.[x])%Z) ->
  exists top s' T, ereach n Ap Ai k par s w = Ok (top, s', w) /\ length s' = length s /\
    top + length T = n /\ (forall a, a < length T -> s'.[top + a] = Z.of_nat T.[a]) /\ NoDup T /\
    (forall x, In x T <-> x < k /\ fill (below n Ap Ai) x k) /\
    (forall a, a < length T -> par.[T.[a]] = Z.of_nat k \/ exists b, a < b < length T /\ par.[T.[a]] = Z.of_nat T.[b]).
Proof.
  intros n Ap Ai par k s w W LP EP Hk Hs Hw Hp. apply wf_mat_rows in W.
  assert (G : wp (ereach n Ap Ai k par s w) (fun r => exists top s' T, r = (top, s', w) /\ length s' = length s /\ stack n par k top s' T /\ NoDup T /\
     forall x, In x T <-> x < k /\ fill (below n Ap Ai) x k)).
  { apply ereach_wp; auto. intros top s' T H1 H2 H3 H4. exists top, s', T. auto. }
  apply wp_ok in G. destruct G as (r & E & top & s' & T & -> & H1 & (H2 & H3 & H4) & H5 & H6). exists top, s', T. splits; auto.
Qed.
Print Assumptions C87_ereach.

(** the marks matter: with a node left marked the reach is cut short *)
Example C87_case : let Ap := [0;1;2;4;7;9] in let Ai := [0;1;0;2;0;1;3;2;4] in let par := [2;3;3;4;-1]%Z in
  ereach 5 Ap Ai 3 par [0;0;0;0;0]%Z [0;0;0;0;0]%Z = Ok (2, [1;2;1;0;2]%Z, [0;0;0;0;0]%Z) /\
  ereach 5 Ap Ai 3 par [0;0;0;0;0]%Z [0;0;-2;0;0]%Z = Ok (3, [1;0;0;1;0]%Z, [0;0;-2;0;0]%Z).
Proof. split; vm_compute; reflexivity. Qed.

(** * C88 *)

Lemma sorted_seq_filter p a n : forall i j, i < j -> j < length (filter p (seq a n)) -> (filter p (seq a n)).[i] < (filter p (seq a n)).[j].
Proof.
  revert a. induction n as [|n IH]; intros a i j Hi Hj; [simpl in Hj; lia|]. cbn [seq filter] in *. destruct (p a); [|apply IH; auto].
  destruct j as [|j]; [lia|]. cbn [length] in Hj. destruct i as [|i]; [|apply (IH (S a) i j); lia].
  change ((a :: filter p (seq (S a) n)).[0]) with a. change ((a :: filter p (seq (S a) n)).[S j]) with ((filter p (seq (S a) n)).[j]).
  assert (H : In (filter p (seq (S a) n)).[j] (filter p (seq (S a) n))) by (apply aget_In; lia). apply filter_In in H. destruct H as [H _]. apply in_seq in H. lia.
Qed.

Lemma counts_pat n (P : nat -> nat -> Prop) : (forall c, c < n -> exists z, counts n (P c) z) ->
  exists pat : nat -> nat -> bool, forall c u, c < n -> u < n -> (pat c u = true <-> P c u).
Proof.
  set (N := n). assert (G : forall m, m <= N -> (forall c, c < N -> exists z, counts N (P c) z) ->
    exists pat : nat -> nat -> bool, forall c u, c < m -> u < N -> (pat c u = true <-> P c u)).
  { induction m as [|m IH]; intros Hm H; [exists (fun _ _ => true); lia|]. destruct (IH ltac:(lia) H) as [pat Hp]. destruct (H m ltac:(lia)) as (z & l & _ & Hl & _).
    exists (fun c u => if c =? m then existsb (Nat.eqb u) l else pat c u). intros c u Hc Hu. destruct (Nat.eqb_spec c m) as [->|]; [|apply Hp; lia].
    rewrite existsb_exists. split.
    - intros (x & Hx & E). apply Nat.eqb_eq in E. subst x. apply Hl in Hx. tauto.
    - intros Hx. exists u. split; [apply Hl; auto|apply Nat.eqb_refl]. }
  intros H. apply (G N); auto.
Qed.

Lemma counts_unique n P z z' : counts n P z -> counts n P z' -> z = z'.
Proof.
  intros (l & N1 & H1 & ->) (l' & N2 & H2 & ->). f_equal. apply Permutation_length. apply NoDup_Permutation; auto. intros x. rewrite H1, H2. tauto.
Qed.

(** Given the exact counts and the elimination tree, the arrays filled by build_L_pattern are the exact pattern of the
    factor; [accessed s] sums the sizes of the columns of the matrix that row [s] of the factor touches. *)
Theorem C88_pattern : forall n Ap Ai par cc acc,
  wf_mat n n Ap Ai -> n <= length par -> (forall v, v < n -> etree_parent (below n Ap Ai) n v par.[v]) ->
  n <= length cc -> n <= length acc -> (forall c, c < n -> counts n (factor_entry (below n Ap Ai) c) cc.[c]) ->
  exists Lp Li acc', build_L_pattern n Ap Ai cc par acc = Ok (Lp, Li, acc') /\ exact_pattern n (below n Ap Ai) Lp Li /\
    (forall c, c < n -> Z.of_nat (Lp.[S c] - Lp.[c]) = cc.[c]) /\ length acc' = length acc /\
    (forall s, s < n -> exists l, NoDup l /\ (forall c, In c l <-> c <= s /\ factor_entry (below n Ap Ai) c s) /\
       acc'.[s] = list_sum (map (fun c => Ap.[S c] - Ap.[c]) l)).
Proof.
  intros n Ap Ai par cc acc W LP EP HC HA HN. apply wf_mat_rows in W. set (A := below n Ap Ai) in *.
  destruct (counts_pat n (factor_entry A)) as [pat HP]; [intros c Hc; eexists; apply HN; auto|].
  assert (CN : forall c, c < n -> cc.[c] = Z.of_nat (cnt n pat c)).
  { intros c Hc. apply (counts_unique n (factor_entry A c)); auto. exists (rows pat c n). unfold rows. split; [apply NoDup_filter, seq_NoDup|]. split; [|reflexivity].
    intros u. rewrite filter_In, in_seq. split; intros [H1 H2]; (split; [lia|]); apply HP; auto; lia. }
  assert (G : wp (build_L_pattern n Ap Ai cc par acc) (fun r => exists Lp Li acc', r = (Lp, Li, acc') /\ length Lp = n + 1 /\ (forall c, c <= n -> Lp.[c] = nsum (cnt n pat) c) /\
     length Li = nsum (cnt n pat) n /\ (forall c, c < n -> slice Li Lp.[c] Lp.[S c] = rows pat c n) /\ length acc' = length acc /\ forall s, s < n -> acc'.[s] = touched Ap pat s)).
  { apply build_L_pattern_wp with (pat := pat); auto. intros Lp Li acc'; intros. exists Lp, Li, acc'. splits; auto. }
  apply wp_ok in G. destruct G as (r & E & Lp & Li & acc' & -> & G1 & G2 & G3 & G4 & G5 & G6). exists Lp, Li, acc'. split; [exact E|].
  assert (STEP : forall c, c < n -> Lp.[S c] = Lp.[c] + cnt n pat c) by (intros c Hc; rewrite !G2 by lia; apply nsum_S).
  assert (TOP : forall c, c <= n -> Lp.[c] <= length Li) by (intros c Hc; rewrite G2, G3 by lia; now apply nsum_mono).
  assert (ROW : forall c k, c < n -> Lp.[c] <= k < Lp.[S c] -> Li.[k] = (rows pat c n).[k - Lp.[c]]).
  { intros c k Hc Hk. rewrite <- G4 by auto. rewrite aget_slice by lia. f_equal. lia. }
  assert (SO : forall c a b, c < n -> Lp.[c] <= a -> a < b -> b < Lp.[S c] -> Li.[a] < Li.[b]).
  { intros c a b Hc Ha Hab Hb. rewrite !(ROW c) by lia. apply sorted_seq_filter; [lia|]. specialize (STEP c Hc). unfold cnt, rows in STEP. lia. }
  assert (EN : forall c u, c < n -> (entry Lp Li c u <-> u < n /\ factor_entry A c u)).
  { intros c u Hc. unfold entry. rewrite <- (In_slice Li Lp.[c] Lp.[S c] u) by (try apply TOP; specialize (STEP c Hc); lia). rewrite G4 by auto. unfold rows. rewrite filter_In, in_seq.
    split; intros [H1 H2]; (split; [lia|]); apply HP; auto; lia. }
  split; [split; [lia|split; [now rewrite G2 by lia|split; [now rewrite G2 by lia|]]]|].
  - intros c Hc. assert (Hd : entry Lp Li c c) by (apply EN; auto; split; auto; left; auto). destruct Hd as (k & Hk & Ek).
    split; [lia|]. split; [apply TOP; lia|]. split; [|split; auto; intros; now apply SO with c].
    assert (Hf : entry Lp Li c Li.[Lp.[c]]) by (exists Lp.[c]; split; [lia|auto]). apply EN in Hf; auto. destruct Hf as (_ & [Hf|Hf]); auto.
    destruct (Nat.eq_dec k Lp.[c]) as [->|]; auto. specialize (SO c Lp.[c] k Hc ltac:(lia) ltac:(lia) ltac:(lia)). lia.
  - split; [intros c Hc; rewrite CN, STEP by auto; lia|]. split; auto. intros s Hs.
    exists (filter (fun c => pat c s) (seq 0 (S s))). split; [apply NoDup_filter, seq_NoDup|]. split; [|rewrite G6 by auto; reflexivity].
    intros c. rewrite filter_In, in_seq. split; intros [H1 H2]; (split; [lia|]); apply HP; auto; lia.
Qed.
Print Assumptions C88_pattern.

Example C88_case : build_L_pattern 5 [0;1;2;4;7;9] [0;1;0;2;0;1;3;2;4] [3;2;3;2;1]%Z [2;3;3;4;-1]%Z [0;0;0;0;0] =
  Ok ([0;3;5;8;10;11], [0;2;3; 1;3; 2;3;4; 3;4; 4], [1;1;3;7;7]).
Proof. vm_compute. reflexivity. Qed.

(** nothing checks the counts: with the one of column 3 too small an entry is lost silently *)
Example C88_wrong_count : build_L_pattern 5 [0;1;2;4;7;9] [0;1;0;2;0;1;3;2;4] [3;2;3;1;1]%Z [2;3;3;4;-1]%Z [0;0;0;0;0] =
  Ok ([0;3;5;8;9;10], [0;2;3; 1;3; 2;3;4; 3; 4], [1;1;3;7;7]).
Proof. vm_compute. reflexivity. Qed.
