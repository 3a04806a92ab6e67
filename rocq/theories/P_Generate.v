(** Property C138: the matrices prepared by the demos. *)
From Coq Require Import ZifyBool ZifyNat.
From Verif Require Import Base Lib Lib2 Lib3 Spec SpecMat SpecSym SpecSolve Check M_Mat M_Sym M_Metis M_Generate L_Mat L_Mat2 L_Mat3 L_Sym L_Sym2 L_Sym3 L_Sym4 P_Mat P_Sym P_Metis P_SpTRSV P_Pipeline.

(** * What the matrices should be *)

(** the stored triangle of [A] (or its mirror image) holds the value v at (i, j) *)
Definition sym_entry {V} `{Dflt V} (A : csc V) (i j : nat) (v : V) : Prop :=
  In (i, v) (col (cp A) (ci A) (cx A) j) \/ In (j, v) (col (cp A) (ci A) (cx A) i).

(** * Proofs *)

Lemma col_entry {U} `{Dflt U} (Ap Ai : list nat) (Ax : list U) c r x : In (r, x) (col Ap Ai Ax c) <-> exists k, Ap.[c] <= k < Ap.[S c] /\ Ai.[k] = r /\ Ax.[k] = x.
Proof.
  unfold col. rewrite in_map_iff. split.
  - intros (k & E & Hk). injection E as <- <-. apply in_seq in Hk. exists k. splits; auto; lia.
  - intros (k & Hk & <- & <-). exists k. split; auto. apply in_seq. lia.
Qed.

Lemma filter_id {T} (p : T -> bool) l : (forall a, In a l -> p a = true) -> filter p l = l.
Proof. induction l as [|a l IH]; intros H; [reflexivity|]. cbn [filter]. rewrite H by now left. f_equal. apply IH. intros b Hb. apply H. now right. Qed.

Lemma In_triples {V} n (cols : nat -> list (nat * V)) r c v : In (r, c, v) (triples n cols) <-> c < n /\ In (r, v) (cols c).
Proof.
  unfold triples. rewrite in_flat_map. split.
  - intros (c' & Hc & H). apply in_map_iff in H. destruct H as ([r' v'] & E & H). cbn [fst snd] in E. injection E as -> -> ->. apply in_seq in Hc. split; [lia|auto].
  - intros [Hc H]. exists c. split; [apply in_seq; lia|]. apply in_map_iff. exists (r, v). auto.
Qed.

Section Gen.
Context {V : Type} {DV : Dflt V}.
Variable node_nd : nat -> list nat -> list nat -> list nat.
Hypothesis METIS : forall n p i, metis_graph n p i -> is_perm n (node_nd n p i).
Variable A : csc V.
Hypothesis MA : mat_ok A.
Hypothesis Hsq : cm A = cn A.
Hypothesis Hn : 0 < cn A.
Hypothesis Hst : cst A <> 0%Z.
Hypothesis HX : (cp A).[cn A] <= length (cx A).
Let n := cn A.
Let colA := col (cp A) (ci A) (cx A).

Lemma colA_bound c e : c < n -> In e (colA c) -> fst e < n.
Proof. intros Hc He. destruct MA as (W & _). rewrite Hsq in W. apply (col_In_bound _ _ _ _ _ _ _ W Hc He). Qed.

Lemma full_sym i j v : i < n -> j < n -> (In (i, v) (full_col n colA j) <-> sym_entry A i j v).
Proof.
  intros Hi Hj. rewrite full_col_In by (auto; intros; now apply (colA_bound i0)). unfold sym_entry. fold colA. split; [tauto|].
  intros [H|H]; [auto|]. destruct (Nat.eq_dec i j) as [->|]; auto.
Qed.

Lemma reorder_core : exists L1 q qi, reorder_L node_nd A = Ok L1 /\ mat_ok L1 /\ cm L1 = n /\ cn L1 = n /\ cst L1 = (-1)%Z /\ cpat L1 = false /\
  perm_pair n q qi /\ (forall c, c < n -> nondecreasing (col (cp L1) (ci L1) (cx L1) c)) /\
  Permutation (triples n (col (cp L1) (ci L1) (cx L1))) (map (rename false qi) (triples n (half_col true (full_col n colA)))).
Proof.
  unfold reorder_L.
  destruct (C34_make_full_exact V DV A MA Hsq Hn Hst HX) as (F & EF & F1 & F2 & F3 & F4 & F5 & F6 & F7 & F8 & F9). rewrite EF. cbn [bind deref].
  fold n in F1, F2, F3, F4, F7, F8, F9. fold colA in F8, F9.
  assert (MF : mat_ok F) by (split; [now rewrite F1, F2|split; [rewrite F2; lia|intros _; rewrite F2; lia]]).
  assert (SYM : forall u v, u < cn F -> v < cn F -> entry (cp F) (ci F) u v -> entry (cp F) (ci F) v u).
  { rewrite F2. intros u v Hu Hv (k & Hk & Ek).
    assert (H : In (v, (cx F).[k]) (col (cp F) (ci F) (cx F) u)) by (apply col_entry; exists k; auto).
    assert (H' : In (u, (cx F).[k]) (col (cp F) (ci F) (cx F) v)).
    { rewrite F8 in H |- * by auto. apply full_sym; auto. apply full_sym in H; auto. unfold sym_entry in *. tauto. }
    apply col_entry in H'. destruct H' as (k' & Hk' & Ek' & _). exists k'. auto. }
  destruct (C100_perm_general V DV node_nd F METIS MF ltac:(lia) ltac:(lia) SYM) as (perm & EP & HP). rewrite EP. cbn [bind]. rewrite F2 in HP.
  destruct (C34_make_half_exact V DV (cn F) (cp F) (ci F) (cx F) (cpat F) true) as (H & EH & H1 & H2 & H3 & H4 & H5 & H6 & H7 & H8 & H9); try (rewrite F2; auto; fail).
  rewrite EH. cbn [bind]. rewrite F2 in *. rewrite F6 in *. specialize (H7 eq_refl). specialize (H9 eq_refl).
  assert (MH : mat_ok H) by (split; [now rewrite H1, H2|split; [rewrite H2; lia|intros _; rewrite H2; lia]]).
  pose proof HP as (PL & PN & PI).
  destruct (C83_reorder V DV H (map Z.of_nat perm)) as (F' & B & qi & E1 & E2 & B1 & B2 & B3 & B4 & B5 & B6 & B7 & B8 & B9); auto; try lia.
  { rewrite map_length. lia. }
  { rewrite H2. intros a Ha. rewrite aget_map by lia. pose proof (is_perm_lt n perm a HP Ha). split; [lia|]. intros b Hb. rewrite aget_map by lia.
    intros E. assert (b = a); [|lia]. apply (is_perm_inj n perm); auto; lia. }
  rewrite E1. cbn [bind deref]. rewrite E2. cbn [bind deref]. rewrite H2 in *. exists B, (fun j => Z.to_nat (map Z.of_nat perm).[j]), qi.
  replace (0 <? cst H)%Z with false in B9 by lia. splits; auto; [lia|].
  rewrite B9. apply Permutation_map. apply Permutation_refl'. unfold tri_triples.
  rewrite (triples_ext n (col (cp H) (ci H) (cx H)) (half_col true (full_col n colA))).
  2:{ intros c Hc. rewrite H7 by auto. unfold half_col. now rewrite F8. }
  apply filter_id. intros [[r c] v] Ht. apply In_triples in Ht. destruct Ht as [_ Ht]. apply filter_In in Ht. tauto.
Qed.

Lemma core_In L1 q qi r c v : perm_pair n q qi ->
  Permutation (triples n (col (cp L1) (ci L1) (cx L1))) (map (rename false qi) (triples n (half_col true (full_col n colA)))) -> c < n ->
  (In (r, v) (col (cp L1) (ci L1) (cx L1) c) <-> c <= r < n /\ sym_entry A (q r) (q c) v).
Proof.
  intros [Q1 Q2] HP Hc.
  assert (E : In (r, v) (col (cp L1) (ci L1) (cx L1) c) <-> In (r, c, v) (triples n (col (cp L1) (ci L1) (cx L1)))) by (rewrite In_triples; tauto).
  rewrite E. split.
  - intros H. apply (Permutation_in _ HP) in H. apply in_map_iff in H. destruct H as ([[i j] w] & E1 & H). unfold rename in E1. injection E1 as E1 E2 ->.
    apply In_triples in H. destruct H as [Hj H]. apply filter_In in H. destruct H as [H Hle]. cbn [fst] in Hle.
    assert (Hi : i < n).
    { apply full_col_In in H; [|auto|intros; now apply (colA_bound i0)]. destruct H as [H|H]; [apply (colA_bound j (i, v) Hj H)|tauto]. }
    apply full_sym in H; auto. destruct (Q2 i Hi) as [I1 I2]. destruct (Q2 j Hj) as [J1 J2]. split; [lia|].
    destruct (Nat.le_ge_cases (qi i) (qi j)) as [G|G].
    + replace r with (qi j) by lia. replace c with (qi i) by lia. rewrite I2, J2. unfold sym_entry in *. tauto.
    + replace r with (qi i) by lia. replace c with (qi j) by lia. rewrite I2, J2. auto.
  - intros [Hr H]. apply (Permutation_in _ (Permutation_sym HP)). destruct (Q1 r ltac:(lia)) as [R1 R2]. destruct (Q1 c Hc) as [C1 C2]. apply in_map_iff.
    destruct (Nat.le_ge_cases (q c) (q r)) as [G|G].
    + exists (q r, q c, v). split; [unfold rename; rewrite R2, C2; f_equal; f_equal; lia|]. apply In_triples. split; [auto|]. apply filter_In. split; [apply full_sym; auto|]. cbn [fst]. lia.
    + exists (q c, q r, v). split; [unfold rename; rewrite R2, C2; f_equal; f_equal; lia|]. apply In_triples. split; [auto|]. apply filter_In. cbn [fst]. split; [|lia]. apply full_sym; auto. unfold sym_entry in *. tauto.
Qed.

(** a lower triangle is the lower half of its symmetric completion *)
Lemma half_full : lower_tri n (cp A) (ci A) -> forall c, c < n -> half_col true (full_col n colA) c = colA c.
Proof.
  intros HT c Hc. unfold half_col, full_col.
  assert (LT : forall i e, i < n -> In e (colA i) -> i <= fst e).
  { intros i [r v] Hi He. cbn [fst]. apply col_entry in He. destruct He as (k & Hk & E & _). destruct (Nat.eq_dec i r); [lia|].
    assert (i < r); [|lia]. apply HT. split; [auto|split; [exists k; auto|auto]]. }
  rewrite filter_flat_map. replace n with (c + S (n - S c)) by lia. rewrite seq_app, flat_map_app. cbn [seq flat_map Nat.add].
  rewrite (flat_map_nil _ (seq 0 c)). 2:{ intros i Hi. apply in_seq in Hi. rewrite filter_flat_map. apply flat_map_nil. intros e He.
    replace (i =? c) with false by lia. cbn [app]. destruct (negb (fst e =? i) && (fst e =? c)); [|reflexivity]. cbn [filter fst]. now replace (c <=? i) with false by lia. }
  rewrite (flat_map_nil _ (seq (S c) _)). 2:{ intros i Hi. apply in_seq in Hi. rewrite filter_flat_map. apply flat_map_nil. intros e He.
    replace (i =? c) with false by lia. cbn [app]. specialize (LT i e ltac:(lia) He). replace (fst e =? c) with false by lia. rewrite andb_false_r. reflexivity. }
  rewrite app_nil_r. cbn [app]. rewrite Nat.eqb_refl.
  assert (G : forall l, (forall e, In e l -> c <= fst e) -> filter (fun e : nat * V => c <=? fst e) (flat_map (fun e => [e] ++ (if negb (fst e =? c) && (fst e =? c) then [(c, snd e)] else [])) l) = l).
  { induction l as [|e l IH]; intros H; [reflexivity|]. cbn [flat_map]. replace (negb (fst e =? c) && (fst e =? c)) with false by lia. rewrite app_nil_r. cbn [app filter].
    specialize (H e (or_introl eq_refl)) as He. replace (c <=? fst e) with true by lia. f_equal. apply IH. intros e' H'. apply H. now right. }
  apply G. intros e He. now apply LT.
Qed.
End Gen.

(** the number of diagonal entries *)
Definition diag_count {V} (u : nat) (l : list (nat * V)) : nat := length (filter (fun e => fst e =? u) l).

Lemma one_diag_count {V} {DV : Dflt V} n Lp Li (Lx : list V) : one_diag n Lp Li <-> forall u, u < n -> diag_count u (col Lp Li Lx u) = 1.
Proof.
  assert (E : forall u, diag_count u (col Lp Li Lx u) = length (filter (fun k => Li.[k] =? u) (seq Lp.[u] (Lp.[S u] - Lp.[u])))).
  { intros u. unfold diag_count, col. induction (seq Lp.[u] (Lp.[S u] - Lp.[u])) as [|k l IH]; [reflexivity|]. cbn [map filter fst]. destruct (Li.[k] =? u); cbn [length]; now rewrite IH. }
  split.
  - intros H u Hu. rewrite E. destruct (H u Hu) as (k & (Hk & Ek) & U).
    assert (L : length (filter (fun k => Li.[k] =? u) (seq Lp.[u] (Lp.[S u] - Lp.[u]))) <= 1).
    { apply (filter_all_eq _ _ k); [apply seq_NoDup|]. intros y Hy Ey. apply in_seq in Hy. apply U; lia. }
    assert (I : In k (filter (fun k => Li.[k] =? u) (seq Lp.[u] (Lp.[S u] - Lp.[u])))) by (apply filter_In; rewrite in_seq; split; lia).
    destruct (filter _ _); [easy|]. cbn [length] in *. lia.
  - intros H u Hu. specialize (H u Hu). rewrite E in H.
    assert (F : forall k, In k (filter (fun k => Li.[k] =? u) (seq Lp.[u] (Lp.[S u] - Lp.[u]))) <-> Lp.[u] <= k < Lp.[S u] /\ Li.[k] = u).
    { intros k. rewrite filter_In, in_seq. lia. }
    destruct (filter _ _) as [|k [|]] eqn:EF; try discriminate. exists k. split; [apply F; now left|].
    intros k' Hk' Ek'. destruct (proj2 (F k') (conj Hk' Ek')) as [|[]]; auto.
Qed.

Lemma diag_triples {V} n (cols : nat -> list (nat * V)) u : u < n ->
  diag_count u (cols u) = length (filter (fun t => (fst (position t) =? u) && (snd (position t) =? u)) (triples n cols)).
Proof.
  intros Hu. unfold triples. rewrite filter_flat_map. replace n with (u + S (n - S u)) by lia. rewrite seq_app, flat_map_app. cbn [seq flat_map Nat.add].
  assert (N : forall c, c <> u -> filter (fun t : nat * nat * V => (fst (position t) =? u) && (snd (position t) =? u)) (map (fun e => (fst e, c, snd e)) (cols c)) = []).
  { intros c Hc. induction (cols c) as [|e l IH]; [reflexivity|]. cbn [map filter position fst snd]. replace (c =? u) with false by lia. now rewrite andb_false_r. }
  rewrite (flat_map_nil _ (seq 0 u)) by (intros c Hc; apply in_seq in Hc; apply N; lia).
  rewrite (flat_map_nil _ (seq (S u) _)) by (intros c Hc; apply in_seq in Hc; apply N; lia). rewrite app_nil_r. cbn [app]. unfold diag_count.
  induction (cols u) as [|e l IH]; [reflexivity|]. cbn [map filter position fst snd]. rewrite Nat.eqb_refl, andb_true_r. destruct (fst e =? u); cbn [length]; now rewrite IH.
Qed.

(** * C138 *)

(** The reordering never fails and gives the lower triangle of P A P', where A is completed symmetrically from what is stored. *)
Theorem C138_reordered : forall (V : Type) (DV : Dflt V) node_nd (A : csc V),
  (forall n p i, metis_graph n p i -> is_perm n (node_nd n p i)) -> mat_ok A -> cm A = cn A -> 0 < cn A -> cst A <> 0%Z -> (cp A).[cn A] <= length (cx A) ->
  exists L1 q qi, reorder_L node_nd A = Ok L1 /\ mat_ok L1 /\ cm L1 = cn A /\ cn L1 = cn A /\ cst L1 = (-1)%Z /\ perm_pair (cn A) q qi /\
    (forall c, c < cn A -> nondecreasing (col (cp L1) (ci L1) (cx L1) c)) /\
    (forall r c v, c < cn A -> (In (r, v) (col (cp L1) (ci L1) (cx L1) c) <-> c <= r < cn A /\ sym_entry A (q r) (q c) v)).
Proof.
  intros V DV nd A HM MA Hsq Hn Hst HX. destruct (reorder_core nd HM A MA Hsq Hn Hst HX) as (L1 & q & qi & E & ML & E1 & E2 & E3 & E4 & PP & ND & HP).
  exists L1, q, qi. splits; auto. intros r c v Hc. now apply (core_In nd HM A MA Hsq Hn HX L1 q qi).
Qed.
Print Assumptions C138_reordered.

(** A lower triangle is only renamed: no entry is lost or duplicated, and the result is again a lower triangular matrix with its
    diagonal, which comes first in every column. *)
Theorem C138_lower : forall (V : Type) (DV : Dflt V) node_nd (A : csc V),
  (forall n p i, metis_graph n p i -> is_perm n (node_nd n p i)) -> mat_ok A -> cm A = cn A -> cst A <> 0%Z -> lower_matrix (cn A) (cp A) (ci A) (cx A) ->
  exists L1 q qi, reorder_L node_nd A = Ok L1 /\ cn L1 = cn A /\ perm_pair (cn A) q qi /\
    Permutation (triples (cn A) (col (cp L1) (ci L1) (cx L1))) (map (rename false qi) (triples (cn A) (col (cp A) (ci A) (cx A)))) /\
    lower_matrix (cn A) (cp L1) (ci L1) (cx L1) /\ diag_first (cn A) (cp L1) (ci L1).
Proof.
  intros V DV nd A HM MA Hsq Hst (W & HD & HT & HX & Hn). destruct (reorder_core nd HM A MA Hsq Hn Hst HX) as (L1 & q & qi & E & ML & E1 & E2 & E3 & E4 & PP & ND & HP).
  set (n := cn A) in *. rewrite (triples_ext n _ _ (half_full nd HM A Hsq Hn HX HT)) in HP.
  assert (HI : forall r c v, c < n -> In (r, v) (col (cp L1) (ci L1) (cx L1) c) -> c <= r).
  { intros r c v Hc H. assert (H' : In (r, c, v) (triples n (col (cp L1) (ci L1) (cx L1)))) by now apply In_triples.
    apply (Permutation_in _ HP) in H'. apply in_map_iff in H'. destruct H' as ([[i j] w] & Er & _). unfold rename in Er. injection Er as <- <- _. lia. }
  assert (LT : lower_tri n (cp L1) (ci L1)).
  { intros u v (Hu & (k & Hk & Ek) & Hne). assert (u <= v); [|lia]. apply (HI v u (cx L1).[k] Hu). apply col_entry. exists k. auto. }
  assert (OD : one_diag n (cp L1) (ci L1)).
  { apply (one_diag_count n (cp L1) (ci L1) (cx L1)). intros u Hu. rewrite (diag_triples n) by auto.
    rewrite (Permutation_length (Permutation_filter _ _ _ HP)). rewrite filter_map_comm, map_length.
    destruct PP as [Q1 Q2]. destruct (Q1 u Hu) as [U1 U2].
    pose proof (proj1 (one_diag_count n (cp A) (ci A) (cx A)) HD (q u) U1) as HC. rewrite (diag_triples n) in HC by auto. rewrite <- HC. f_equal.
    apply filter_ext_in. intros [[i j] v] Ht. apply In_triples in Ht. destruct Ht as [Hj Ht].
    assert (Hi : i < n) by apply (colA_bound A MA Hsq j (i, v) Hj Ht). unfold rename, position. cbn [fst snd].
    destruct (Q2 i Hi) as [I1 I2]. destruct (Q2 j Hj) as [J1 J2].
    assert (EI : qi i = u <-> i = q u) by (split; [now intros <-|now intros ->]). assert (EJ : qi j = u <-> j = q u) by (split; [now intros <-|now intros ->]). lia. }
  destruct ML as (WL & NL & XL). rewrite E1, E2 in WL. rewrite E2 in XL. specialize (XL E4).
  exists L1, q, qi. splits; auto.
  - unfold lower_matrix. splits; auto.
  - intros u Hu. destruct (OD u Hu) as (k & (Hk & Ek) & U).
    assert (HL : length (col (cp L1) (ci L1) (cx L1) u) = (cp L1).[S u] - (cp L1).[u]) by (unfold col; now rewrite map_length, seq_length).
    assert (HG : forall j, (cp L1).[u] <= j < (cp L1).[S u] -> (col (cp L1) (ci L1) (cx L1) u).[j - (cp L1).[u]] = ((ci L1).[j], (cx L1).[j])).
    { intros j Hj. unfold col. rewrite aget_map by (rewrite seq_length; lia). rewrite aget_seq by lia. replace ((cp L1).[u] + (j - (cp L1).[u])) with j by lia. reflexivity. }
    assert (K : k = (cp L1).[u]).
    { destruct (Nat.eq_dec k (cp L1).[u]) as [|Hne]; auto. exfalso.
      assert (HS : fst (col (cp L1) (ci L1) (cx L1) u).[0] <= fst (col (cp L1) (ci L1) (cx L1) u).[k - (cp L1).[u]]).
      { specialize (ND u Hu). destruct (col (cp L1) (ci L1) (cx L1) u) as [|e l]; [cbn in HL; lia|]. destruct ND as [N1 _]. destruct (k - (cp L1).[u]) as [|m] eqn:Em; [lia|].
        rewrite aget_cons_0, aget_cons_S. apply N1. apply aget_In. cbn [length] in HL. lia. }
      rewrite HG in HS by lia. replace 0 with ((cp L1).[u] - (cp L1).[u]) in HS by lia. rewrite HG in HS by lia. cbn [fst] in HS.
      pose proof (HI (ci L1).[(cp L1).[u]] u (cx L1).[(cp L1).[u]] Hu) as HI'. assert (u <= (ci L1).[(cp L1).[u]]) by (apply HI'; apply col_entry; exists (cp L1).[u]; splits; auto; lia).
      apply Hne. symmetry. apply U; lia. }
    subst k. splits; auto; [lia|]. intros k Hk' Ek'. assert (k = (cp L1).[u]) by (apply U; auto; lia). lia.
Qed.
Print Assumptions C138_lower.

(** generate_matrices_from_mtx: B is P A P', B_csr holds its rows and L2_csr the rows of its lower triangle. *)
Theorem C138_generated : forall (V : Type) (DV : Dflt V) node_nd (A : csc V),
  (forall n p i, metis_graph n p i -> is_perm n (node_nd n p i)) -> mat_ok A -> cm A = cn A -> 0 < cn A -> cst A <> 0%Z -> (cp A).[cn A] <= length (cx A) ->
  exists L2 B Bc q qi, generate_matrices node_nd A = Ok (L2, B, Bc) /\ perm_pair (cn A) q qi /\
    (forall r c v, r < cn A -> (In (c, v) (col (cp L2) (ci L2) (cx L2) r) <-> c <= r /\ sym_entry A (q r) (q c) v)) /\
    (forall r c v, c < cn A -> (In (r, v) (col (cp B) (ci B) (cx B) c) <-> r < cn A /\ sym_entry A (q r) (q c) v)) /\
    (forall r c v, r < cn A -> (In (c, v) (col (cp Bc) (ci Bc) (cx Bc) r) <-> c < cn A /\ sym_entry A (q r) (q c) v)) /\
    (lower_matrix (cn A) (cp A) (ci A) (cx A) -> lower_rows (cn A) (cp L2) (ci L2) (cx L2) /\ (cp L2).[cn A] = (cp A).[cn A]).
Proof.
  intros V DV nd A HM MA Hsq Hn Hst HX. destruct (reorder_core nd HM A MA Hsq Hn Hst HX) as (L1 & q & qi & E & ML & E1 & E2 & E3 & E4 & PP & ND & HP).
  set (n := cn A) in *. pose proof (core_In nd HM A MA Hsq Hn HX L1 q qi) as HI. fold n in HI.
  unfold generate_matrices. rewrite E. cbn [bind]. pose proof ML as (WL & NL & XL). rewrite E1, E2 in WL. rewrite E2 in XL, NL. specialize (XL E4).
  destruct (C33_csc_to_csr_matrix V DV L1 ML ltac:(lia)) as (L2 & EL & L21 & L22 & L23 & R1 & R2 & R3 & R4 & R5). rewrite EL. cbn [bind].
  rewrite E1, E2, E4 in *. specialize (R5 eq_refl). specialize (R3 eq_refl).
  destruct (C34_make_full_exact V DV L1 ML ltac:(lia) ltac:(lia) ltac:(lia) ltac:(rewrite E2; auto)) as (B & EB & B1 & B2 & B3 & B4 & B5 & B6 & B7 & B8 & B9). rewrite EB. cbn [bind deref]. rewrite E2 in *.
  assert (MB : mat_ok B) by (split; [now rewrite B1, B2|split; [rewrite B2; lia|intros _; rewrite B2; lia]]).
  destruct (C33_csc_to_csr_matrix V DV B MB ltac:(lia)) as (Bc & EC & C1 & C2 & C3 & S1 & S2 & S3 & S4 & S5). rewrite EC. cbn [bind].
  rewrite B1, B2, B6 in *. specialize (S5 eq_refl).
  assert (SYM : forall i j v, sym_entry A i j v <-> sym_entry A j i v) by (intros; unfold sym_entry; tauto).
  assert (GB : forall r c v, c < n -> (In (r, v) (col (cp B) (ci B) (cx B) c) <-> r < n /\ sym_entry A (q r) (q c) v)).
  { intros r c v Hc. rewrite B9 by auto. rewrite HI by auto. split.
    - intros [H|(Hr & Hne & H)]; [split; [lia|tauto]|]. apply HI in H; auto. split; [auto|]. apply SYM. tauto.
    - intros [Hr H]. destruct (Nat.le_gt_cases c r); [left; split; [lia|auto]|]. right. splits; auto; [lia|]. apply HI; auto. split; [lia|]. now apply SYM. }
  exists L2, B, Bc, q, qi. split; [reflexivity|]. split; [auto|]. split; [|split; [exact GB|split]].
  - intros r c v Hr. rewrite R5 by auto. rewrite row_of_In. split; [intros [Hc H]; apply HI in H; auto; tauto|]. intros [Hc H]. split; [lia|]. apply HI; auto; try lia.
  - intros r c v Hr. rewrite S5 by auto. rewrite row_of_In. split; [intros [Hc H]; apply GB in H; tauto|]. intros [Hc H]. split; [auto|]. apply GB; auto.
  - intros LM. destruct (C138_lower V DV nd A HM MA Hsq Hst LM) as (L1' & q' & qi' & E' & _ & PP' & HP' & LM' & DF). rewrite E in E'. injection E' as <-. fold n in LM', HP'.
    split.
    + destruct LM' as (W1 & W2 & W3 & W4 & W5). apply (rows_of_lower n (cp L1) (ci L1) (cx L1)); auto; try lia.
      * intros r Hr. rewrite R5 by auto. apply row_of_sorted.
      * intros r c v Hr. rewrite R5 by auto. apply row_of_In.
    + rewrite R2. apply Permutation_length in HP'. rewrite map_length in HP'.
      assert (T : forall Mp Mi (Mx : list V), wf_mat n n Mp Mi -> length (triples n (col Mp Mi Mx)) = Mp.[n]).
      { intros Mp Mi Mx (M1 & M2 & M3 & M4 & M5). unfold triples. assert (G : forall k, k <= n -> length (flat_map (fun c => map (fun e : nat * V => (fst e, c, snd e)) (col Mp Mi Mx c)) (seq 0 k)) = Mp.[k]).
        { induction k as [|k IH]; intros Hk; [now rewrite M2|]. rewrite seq_S, flat_map_app, app_length, IH by lia. cbn [flat_map Nat.add]. rewrite app_nil_r, map_length. unfold col. rewrite map_length, seq_length.
          specialize (M3 k ltac:(lia)). lia. }
        apply G. lia. }
      rewrite !T in HP'; auto. destruct MA as (WA & _). now rewrite Hsq in WA.
Qed.
Print Assumptions C138_generated.

Definition exA : csc Z := mkCSC 3 3 5 false (-1)%Z [0;2;4;5] [0;2;1;2;2] [4;7;5;8;6]%Z.
Example C138_nonvacuous : (forall n p i, metis_graph n p i -> is_perm n ((fun n _ _ => rev (seq 0 n)) n p i)) /\ mat_ok exA /\ lower_matrix 3 (cp exA) (ci exA) (cx exA) /\
  generate_matrices (fun n _ _ => rev (seq 0 n)) exA =
    Ok (mkCSC 3 3 5 false 0%Z [0;1;3;5] [0;0;1;0;2] [6;8;5;7;4]%Z,
        mkCSC 3 3 7 false 0%Z [0;3;5;7] [0;1;2;0;1;0;2;0;0;0] [6;8;7;8;5;7;4;0;0;0]%Z,
        mkCSC 3 3 7 false 0%Z [0;3;5;7] [0;1;2;0;1;0;2] [6;8;7;8;5;7;4]%Z).
Proof.
  split; [|split; [|split]].
  - intros n p i _. apply is_perm_Permutation. apply Permutation_sym, Permutation_rev.
  - unfold mat_ok, exA. cbn [cm cn cp ci cx cnnz cpat]. split; [apply wf_cscb_ok; vm_compute; reflexivity|split; [vm_compute; lia|intros _; vm_compute; lia]].
  - unfold lower_matrix, exA. cbn [cp ci cx]. splits; try (vm_compute; lia).
    + apply wf_cscb_ok. vm_compute. reflexivity.
    + apply (one_diag_count 3 _ _ [4;7;5;8;6]%Z). intros u Hu. do 3 (destruct u as [|u]; [vm_compute; reflexivity|]). lia.
    + apply lower_trib_ok. vm_compute. reflexivity.
  - vm_compute. reflexivity.
Qed.
