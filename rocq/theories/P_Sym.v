(** C83, C84: symmetric transposition, sum of matrices, make_symmetric. *)
From Coq Require Import ZifyBool ZifyNat.
From Verif Require Import Base Lib Lib2 Lib3 Spec SpecMat SpecSym M_Mat M_Sym L_Mat L_Mat2 L_Mat3 L_Sym L_Sym2 L_Sym3 L_Sym4.

(** * C83: transpose_symmetric *)

Lemma id_pair n : perm_pair n (fun i => i) (fun i => i).
Proof. split; auto. Qed.

Lemma sym_result_triples {V} {DV : Dflt V} (A F : csc V) q qi : mat_ok A -> cm A = cn A -> perm_pair (cn A) q qi -> sym_result q qi A F ->
  let up := (0 <? cst A)%Z in
  Permutation (map position (triples (cn A) (col (cp F) (ci F) (cx F))))
    (map position (map (rename (negb up) qi) (tri_triples up (cn A) (col (cp A) (ci A) (cx A))))) /\
  (cpat A = false -> Permutation (triples (cn A) (col (cp F) (ci F) (cx F))) (map (rename (negb up) qi) (tri_triples up (cn A) (col (cp A) (ci A) (cx A))))).
Proof.
  intros (W & _) Hsq PP (_ & _ & _ & _ & _ & _ & _ & _ & _ & G1 & G2 & _) up.
  assert (HC : forall c e, c < cn A -> In e (col (cp A) (ci A) (cx A) c) -> fst e < cn A).
  { intros c e Hc He. rewrite <- Hsq. apply (col_In_bound _ _ _ _ _ _ _ W Hc He). }
  split.
  - rewrite (positions_ext _ _ _ G1). apply Permutation_map. now apply sym_triples.
  - intros Hp. rewrite (triples_ext _ _ _ (G2 Hp)). now apply sym_triples.
Qed.

(** Without permutation: the result is the other triangle.  Column [c] lists the entries of row [c]
    of the given triangle by increasing column; entries outside the triangle are dropped. *)
Theorem C83_transpose_symmetric : forall (V : Type) (DV : Dflt V) (A : csc V),
  mat_ok A -> cm A = cn A -> 0 < cn A -> cst A <> 0%Z ->
  let up := (0 <? cst A)%Z in let n := cn A in
  exists F, transpose_symmetric A None = Ok (Some F) /\ mat_ok F /\ cm F = n /\ cn F = n /\ cst F = (- cst A)%Z /\ cnnz F = cnnz A /\ cpat F = false /\
    (forall c, c < n -> nondecreasing (col (cp F) (ci F) (cx F) c)) /\
    (forall c, c < n -> map fst (col (cp F) (ci F) (cx F) c) = map fst (filter (fun e => if up then c <=? fst e else fst e <=? c) (row_of n (col (cp A) (ci A) (cx A)) c))) /\
    (cpat A = false -> forall c, c < n -> col (cp F) (ci F) (cx F) c = filter (fun e => if up then c <=? fst e else fst e <=? c) (row_of n (col (cp A) (ci A) (cx A)) c)).
Proof.
  intros V DV A MO Hsq Hn Hst up n.
  assert (G : wp (transpose_symmetric A None) (fun r => exists F, r = Some F /\ sym_result (fun i => i) (fun i => i) A F)).
  { apply (transpose_symmetric_wp A None None (fun i => i) (fun i => i)); auto; [apply id_pair|]. intros F HF. exists F. auto. }
  destruct (transpose_symmetric A None) as [r|e]; [|easy]. destruct G as (F & -> & HF). exists F. split; [reflexivity|].
  destruct HF as (R1 & R2 & R3 & R4 & R5 & R6 & R7 & R8 & R9 & R10 & R11 & R12). fold n in R1, R2, R8, R9, R10, R11. fold up in R10, R11.
  assert (HF : forall c, c < n -> map fst (col (cp F) (ci F) (cx F) c) = map fst (filter (fun e => if up then c <=? fst e else fst e <=? c) (row_of n (col (cp A) (ci A) (cx A)) c))).
  { intros c Hc. rewrite R10 by auto. now rewrite sym_col_id. }
  destruct MO as (_ & HN & _). fold n in HN. splits; auto.
  - unfold mat_ok. rewrite R1, R2, R3, R7. splits; auto. lia. intros _. lia.
  - intros c Hc. apply (nondecreasing_fst _ _ (eq_sym (HF c Hc))). apply nondecreasing_filter. apply row_of_sorted.
  - intros Hp c Hc. rewrite R11 by auto. now rewrite sym_col_id.
Qed.
Print Assumptions C83_transpose_symmetric.

(** With a permutation: the entries of the result are, each once, the entries of the given triangle with
    both indices renamed and put in the order of the other triangle. *)
Theorem C83_permuted : forall (V : Type) (DV : Dflt V) (A : csc V) P,
  mat_ok A -> cm A = cn A -> 0 < cn A -> cst A <> 0%Z -> cn A <= length P -> good_prefix (cn A) P (cn A) ->
  let up := (0 <? cst A)%Z in let n := cn A in
  exists F qi, transpose_symmetric A (Some P) = Ok (Some F) /\ mat_ok F /\ cm F = n /\ cn F = n /\ cst F = (- cst A)%Z /\ cnnz F = cnnz A /\ cpat F = false /\
    perm_pair n (fun j => Z.to_nat P.[j]) qi /\
    Permutation (map position (triples n (col (cp F) (ci F) (cx F))))
      (map position (map (rename (negb up) qi) (tri_triples up n (col (cp A) (ci A) (cx A))))) /\
    (cpat A = false -> Permutation (triples n (col (cp F) (ci F) (cx F))) (map (rename (negb up) qi) (tri_triples up n (col (cp A) (ci A) (cx A))))).
Proof.
  intros V DV A P MO Hsq Hn Hst HP G up n.
  destruct (check_perm_good (cn A) P HP G) as (Pinv & EC & LI & PP & HI).
  set (q := fun j => Z.to_nat P.[j]) in *. set (qi := fun i => Z.to_nat Pinv.[i]) in *.
  assert (GW : wp (transpose_symmetric A (Some P)) (fun r => exists F, r = Some F /\ sym_result q qi A F)).
  { apply (transpose_symmetric_wp A (Some P) (Some (P, Pinv)) q qi); auto.
    - rewrite Hsq, EC. reflexivity.
    - intros j Hj. cbn [old_col]. rewrite rd_ok by lia. reflexivity.
    - intros i Hi. cbn [new_row]. rewrite rd_ok by lia. reflexivity.
    - discriminate.
    - intros F HF. exists F. auto. }
  destruct (transpose_symmetric A (Some P)) as [r|e]; [|easy]. destruct GW as (F & -> & HF). exists F, qi. split; [reflexivity|].
  destruct (sym_result_triples A F q qi MO Hsq PP HF) as [T1 T2].
  destruct HF as (R1 & R2 & R3 & R4 & R5 & R6 & R7 & R8 & R9 & R10 & R11 & R12). fold n in R1, R2, R8, R9, R10, R11. fold up in R10, R11.
  destruct MO as (_ & HN & _). fold n in HN. splits; auto. unfold mat_ok. rewrite R1, R2, R3, R7. splits; auto; [lia|]. intros _. lia.
Qed.
Print Assumptions C83_permuted.

(** the two calls by which the examples reorder a matrix: with the permutation, then without *)
Theorem C83_reorder : forall (V : Type) (DV : Dflt V) (A : csc V) P,
  mat_ok A -> cm A = cn A -> 0 < cn A -> cst A <> 0%Z -> cpat A = false -> cn A <= length P -> good_prefix (cn A) P (cn A) ->
  let up := (0 <? cst A)%Z in let n := cn A in
  exists F B qi, transpose_symmetric A (Some P) = Ok (Some F) /\ transpose_symmetric F None = Ok (Some B) /\ mat_ok B /\ cm B = n /\ cn B = n /\ cpat B = false /\ cst B = cst A /\ cnnz B = cnnz A /\
    perm_pair n (fun j => Z.to_nat P.[j]) qi /\
    (forall c, c < n -> nondecreasing (col (cp B) (ci B) (cx B) c)) /\
    Permutation (triples n (col (cp B) (ci B) (cx B))) (map (rename up qi) (tri_triples up n (col (cp A) (ci A) (cx A)))).
Proof.
  intros V DV A P MO Hsq Hn Hst Hp HP G up n.
  destruct (C83_permuted V DV A P MO Hsq Hn Hst HP G) as (F & qi & E1 & MF & F1 & F2 & F3 & F4 & F5 & PP & _ & T1). fold n in F1, F2, PP, T1. fold up in T1.
  destruct (C83_transpose_symmetric V DV F) as (B & E2 & MB & B1 & B2 & B3 & B4 & B5 & B6 & _ & B8); auto; try lia.
  assert (GW : wp (transpose_symmetric F None) (fun r => exists B, r = Some B /\ sym_result (fun i => i) (fun i => i) F B)).
  { apply (transpose_symmetric_wp F None None (fun i => i) (fun i => i)); auto; try lia; [apply id_pair|]. intros B' HF. exists B'. auto. }
  rewrite E2 in GW. destruct GW as (B' & EB & HB). injection EB as <-.
  destruct (sym_result_triples F B _ _ MF ltac:(lia) (id_pair _) HB) as [_ T2]. specialize (T2 F5). specialize (T1 Hp). rewrite F2 in *.
  exists F, B, qi. splits; auto; try lia.
  rewrite T2. rewrite F3. assert (EU : (0 <? - cst A)%Z = negb up) by (unfold up; lia). rewrite EU, negb_involutive. unfold tri_triples at 1.
  rewrite (Permutation_map _ (Permutation_filter _ _ _ T1)).
  assert (EF : forall l : list (nat * nat * V), filter (fun t => let '(i, j, _) := t in if negb up then i <=? j else j <=? i) (map (rename (negb up) qi) l) = map (rename (negb up) qi) l).
  { induction l as [|[[i j] v] l IH]; [reflexivity|]. cbn [map filter rename]. rewrite IH.
    destruct up; cbn [negb]; [replace (Nat.min (qi i) (qi j) <=? Nat.max (qi i) (qi j)) with true by lia|replace (Nat.min (qi i) (qi j) <=? Nat.max (qi i) (qi j)) with true by lia]; reflexivity. }
  rewrite EF, map_map. apply Permutation_refl'. apply map_ext. intros [[i j] v]. unfold rename. destruct up; cbn [negb]; f_equal; f_equal; lia.
Qed.
Print Assumptions C83_reorder.

Lemma symA_ok : mat_ok symA /\ cm symA = cn symA /\ good_prefix 3 [2; 0; 1]%Z 3.
Proof.
  split; [|split; [reflexivity|]].
  - split; [|split; [vm_compute; lia|intros _; vm_compute; lia]]. split; [vm_compute; lia|]. split; [reflexivity|]. split; [intros i Hi; change (cn symA) with 3 in Hi; do 3 (destruct i as [|i]; [vm_compute; lia|]); lia|].
    split; [vm_compute; lia|]. intros k Hk. change ((cp symA).[cn symA]) with 4 in Hk. do 4 (destruct k as [|k]; [vm_compute; lia|]). lia.
  - intros a Ha. do 3 (destruct a as [|a]; [split; [vm_compute; split; [discriminate|reflexivity]|intros b Hb; do 2 (destruct b as [|b]; [try lia; vm_compute; discriminate|]); lia]|]). lia.
Qed.

(** Anything else is refused with a null pointer, except that an entry equal to n is looked up beyond the
    end of the inverse permutation. *)
Theorem C83_bad_permutation : forall (V : Type) (DV : Dflt V) (A : csc V) P k,
  cm A = cn A -> cst A <> 0%Z -> cn A <= length P -> bad_at (cn A) P k ->
  transpose_symmetric A (Some P) = if (P.[k] =? Z.of_nat (cn A))%Z then Err OOB else Ok None.
Proof.
  intros V DV A P k Hsq Hst HP HB. unfold transpose_symmetric. rewrite Hsq. replace ((cst A =? 0)%Z || negb (cn A =? cn A)) with false by lia. cbv zeta.
  rewrite (check_perm_bad _ _ HP _ HB). destruct (P.[k] =? Z.of_nat (cn A))%Z; reflexivity.
Qed.
Print Assumptions C83_bad_permutation.

Theorem C83_permutation_check_refuted : ~ (forall (A : csc Z) P, mat_ok A -> cm A = cn A -> 0 < cn A -> cst A <> 0%Z -> cn A <= length P ->
  ~ good_prefix (cn A) P (cn A) -> transpose_symmetric A (Some P) = Ok None).
Proof.
  intros H. specialize (H symA [2; 3; 0]%Z). assert (E : transpose_symmetric symA (Some [2; 3; 0]%Z) = Err OOB) by (vm_compute; reflexivity).
  rewrite H in E; [discriminate|..]; try (simpl; lia).
  - apply symA_ok.
  - intros G. destruct (G 1) as [G1 _]; [simpl; lia|]. vm_compute in G1. destruct G1 as [_ G1]. discriminate.
Qed.
Print Assumptions C83_permutation_check_refuted.

Theorem C83_refused : forall (V : Type) (DV : Dflt V) (A : csc V) Perm, cst A = 0%Z \/ cm A <> cn A -> transpose_symmetric A Perm = Ok None.
Proof. intros V DV A Perm H. unfold transpose_symmetric. replace ((cst A =? 0)%Z || negb (cm A =? cn A)) with true; [reflexivity|]. destruct H; lia. Qed.
Print Assumptions C83_refused.

(** a matrix without rows: the row pointer array is null and written *)
Theorem C83_empty_out_of_bounds : forall (V : Type) (DV : Dflt V) (A : csc V), cst A <> 0%Z -> cm A = 0 -> cn A = 0 -> transpose_symmetric A None = Err OOB.
Proof.
  intros V DV A H1 H2 H3. unfold transpose_symmetric. rewrite H2, H3. replace ((cst A =? 0)%Z || negb (0 =? 0)) with false by lia. reflexivity.
Qed.
Print Assumptions C83_empty_out_of_bounds.

Example C83_case : mat_ok symA /\ cm symA = cn symA /\ good_prefix 3 [2; 0; 1]%Z 3 /\
  bad_at 3 [2; 3; 0]%Z 1 /\ bad_at 3 [2; 0; 0]%Z 2.
Proof.
  destruct symA_ok as (H1 & H2 & H3). split; [auto|]. split; [auto|]. split; [auto|]. split; (split; [lia|split]).
  - intros a Ha. assert (a = 0) by lia. subst a. split; [vm_compute; split; [discriminate|reflexivity]|lia].
  - right. left. vm_compute. discriminate.
  - intros a Ha. do 2 (destruct a as [|a]; [split; [vm_compute; split; [discriminate|reflexivity]|intros b Hb; do 1 (destruct b as [|b]; [try lia; vm_compute; discriminate|]); lia]|]). lia.
  - right. right. exists 1. split; [lia|reflexivity].
Qed.
