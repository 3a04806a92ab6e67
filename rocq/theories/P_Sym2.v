(** C84: the sum of two sparse matrices and make_symmetric. *)
From Coq Require Import ZifyBool ZifyNat.
From Verif Require Import Base Lib Lib2 Lib3 Spec SpecMat SpecSym M_Mat M_Sym L_Mat L_Mat2 L_Mat3 L_Sym L_Sym2 L_Sym3 L_Sym4 P_Sym.

Lemma col_fst {V} {DV : Dflt V} Ap Ai (Ax : list V) c : Ap.[c] <= Ap.[S c] -> Ap.[S c] <= length Ai -> map fst (col Ap Ai Ax c) = slice Ai Ap.[c] Ap.[S c].
Proof.
  intros H1 H2. unfold col. rewrite map_map. cbn [fst]. apply list_ext.
  - rewrite map_length, seq_length, slice_length; auto.
  - intros i Hi. rewrite map_length, seq_length in Hi. rewrite aget_slice by (auto; lia). rewrite (aget_map (fun k => Ai.[k])) by (rewrite seq_length; auto). now rewrite aget_seq by auto.
Qed.

Lemma sorted_increasing {V} (l : list (nat * V)) : NoDup (map fst l) -> sorted_le (map fst l) -> increasing l.
Proof.
  induction l as [|e l IH]; intros H1 H2; [constructor|]. cbn [map] in *. inversion H1 as [|? ? H3 H4]; subst. apply sorted_le_cons in H2. destruct H2 as [H2 H5].
  split; [|auto]. intros e' He. apply (in_map fst) in He. specialize (H2 _ He). destruct (Nat.eq_dec (fst e) (fst e')) as [E|]; [rewrite E in H3; easy|lia].
Qed.

(** For any two well-formed matrices of the same shape and kind: every column of alpha A + beta B has one
    entry for each row that occurs in A or B, in increasing order if asked for, and its value is the
    sum of the scaled occurrences.  (The field nnz is the number of cells, not of entries.) *)
Theorem C84_add : forall (V : Type) (DV : Dflt V) mul add (A B : csc V) alpha beta sort,
  mat_ok A -> mat_ok B -> cm B = cm A -> cn B = cn A -> 0 < cn A -> cst A = cst B ->
  let n := cn A in
  let l c := lin_col mul alpha beta (col (cp A) (ci A) (cx A) c) (col (cp B) (ci B) (cx B) c) in
  exists C, add_csc mul add A B alpha beta sort = Ok (Some C) /\ cm C = cm A /\ cn C = n /\ cst C = cst A /\ cpat C = cpat A /\
    wf_mat (cm A) n (cp C) (ci C) /\ cnnz C = (cp A).[n] + (cp B).[n] /\ (cp C).[n] <= cnnz C /\ length (ci C) = cnnz C /\
    length (cx C) = (if cpat A || cpat B then 0 else cnnz C) /\
    (forall c, c < n -> same_rows sort (l c) (col (cp C) (ci C) (cx C) c)) /\
    (cpat A = false -> cpat B = false -> forall c, c < n -> sums add (l c) (col (cp C) (ci C) (cx C) c)).
Proof.
  intros V DV mul add A B alpha beta sort MA MB SM SN NP ST n l.
  assert (G : wp (add_csc mul add A B alpha beta sort) (fun r => exists C, r = Some C /\ cm C = cm A /\ cn C = n /\ cst C = cst A /\ cpat C = cpat A /\
    wf_mat (cm A) n (cp C) (ci C) /\ cnnz C = (cp A).[n] + (cp B).[n] /\ (cp C).[n] <= cnnz C /\ length (ci C) = cnnz C /\
    length (cx C) = (if cpat A || cpat B then 0 else cnnz C) /\
    (forall c, c < n -> same_rows sort (l c) (col (cp C) (ci C) (cx C) c)) /\
    (cpat A = false -> cpat B = false -> forall c, c < n -> sums add (l c) (col (cp C) (ci C) (cx C) c)))).
  { apply add_wp; auto. intros C K1 K2 K3 K4 K5 K6 K7 K8 K9 K10 K11. exists C. splits; auto; try (unfold n; lia).
    - destruct (cpat A || cpat B); [now rewrite K8|]. rewrite K5. now apply K7.
    - intros c Hc. destruct (K11 c Hc) as (G1 & G2 & G3 & G4 & G5 & G6). unfold same_rows. rewrite col_fst by lia. splits; auto.
      intros HS. apply sorted_increasing; rewrite col_fst by lia; auto.
    - intros P1 P2 c Hc i v Hin. destruct (K11 c Hc) as (G1 & G2 & G3 & G4 & G5 & G6). unfold col in Hin. apply in_map_iff in Hin. destruct Hin as (k & E & Hk).
      apply in_seq in Hk. injection E as <- <-. apply G6; [now rewrite P1, P2|lia]. }
  destruct (add_csc mul add A B alpha beta sort) as [r|e]; [|easy]. destruct G as (C & -> & G). exists C. auto.
Qed.
Print Assumptions C84_add.

Theorem C84_add_refused : forall (V : Type) (DV : Dflt V) mul add (A B : csc V) alpha beta sort,
  cst A <> cst B -> add_csc mul add A B alpha beta sort = Ok None.
Proof. intros V DV mul add A B al be s H. unfold add_csc. now replace (negb (cst A =? cst B)%Z) with true by lia. Qed.
Print Assumptions C84_add_refused.

(** The result says it has values whenever A has; when B is a pattern it has none. *)
Theorem C84_add_flag_refuted : ~ (forall mul add (A B C : csc Z) alpha beta sort, mat_ok A -> mat_ok B -> cm B = cm A -> cn B = cn A -> 0 < cn A ->
  add_csc mul add A B alpha beta sort = Ok (Some C) -> mat_ok C).
Proof.
  intros H. set (B := mkCSC 1 1 1 true 0%Z [0; 1] [0] (@nil Z)). set (A := mkCSC 1 1 1 false 0%Z [0; 1] [0] [5%Z]).
  assert (E : exists C, add_csc Z.mul Z.add A B 1%Z 1%Z true = Ok (Some C) /\ cpat C = false /\ (cp C).[cn C] = 1 /\ cx C = []).
  { eexists. split; [vm_compute; reflexivity|]. splits; reflexivity. }
  destruct E as (C & E & E1 & E2 & E3). apply H in E; try (vm_compute; lia).
  - destruct E as (_ & _ & E). specialize (E E1). rewrite E2, E3 in E. simpl in E. lia.
  - split; [|split; [vm_compute; lia|intros _; vm_compute; lia]]. split; [vm_compute; lia|]. split; [reflexivity|]. split; [intros i Hi; change (cn A) with 1 in Hi; destruct i; [vm_compute; lia|lia]|].
    split; [vm_compute; lia|]. intros k Hk. change ((cp A).[cn A]) with 1 in Hk. destruct k; [vm_compute; lia|lia].
  - split; [|split; [vm_compute; lia|intros E'; discriminate E']]. split; [vm_compute; lia|]. split; [reflexivity|]. split; [intros i Hi; change (cn B) with 1 in Hi; destruct i; [vm_compute; lia|lia]|].
    split; [vm_compute; lia|]. intros k Hk. change ((cp B).[cn B]) with 1 in Hk. destruct k; [vm_compute; lia|lia].
Qed.
Print Assumptions C84_add_flag_refuted.

(** two columns, one entry in common, duplicates *)
Example C84_case :
  add_csc Z.mul Z.add (mkCSC 3 2 4 false 0%Z [0;2;4] [2;0;1;1] [1;2;3;4]%Z) (mkCSC 3 2 2 false 0%Z [0;1;2] [2;0] [5;6]%Z) 10%Z 1%Z true =
    Ok (Some (mkCSC 3 2 6 false 0%Z [0;2;4] [0;2;0;1;0;0] [20;15;6;70;0;0]%Z)) /\
  add_csc Z.mul Z.add (mkCSC 3 2 4 false 0%Z [0;2;4] [2;0;1;1] [1;2;3;4]%Z) (mkCSC 3 2 2 false 0%Z [0;1;2] [2;0] [5;6]%Z) 10%Z 1%Z false =
    Ok (Some (mkCSC 3 2 6 false 0%Z [0;2;4] [2;0;1;0;0;0] [15;20;70;6;0;0]%Z)).
Proof. split; vm_compute; reflexivity. Qed.

(** * make_symmetric *)

(** a matrix stored in the wanted triangle is returned as it is *)
Theorem C84_make_symmetric_same : forall (V : Type) (DV : Dflt V) mul add half (A : csc V) (lower : bool),
  (if lower then (cst A < 0)%Z else (0 < cst A)%Z) -> make_symmetric mul add half A lower = Ok (true, Some A).
Proof.
  intros V DV mul add half A lower H. unfold make_symmetric.
  replace (((0 <? cst A)%Z && negb lower) || ((cst A <? 0)%Z && lower)) with true; [reflexivity|]. destruct lower; cbn [negb]; lia.
Qed.
Print Assumptions C84_make_symmetric_same.

(** one stored in the other triangle is transposed *)
Theorem C84_make_symmetric_other : forall (V : Type) (DV : Dflt V) mul add half (A : csc V) (lower : bool),
  (if lower then (0 < cst A)%Z else (cst A < 0)%Z) -> 
  make_symmetric mul add half A lower = bind (transpose_symmetric A None) (fun r => Ok (false, r)).
Proof.
  intros V DV mul add half A lower H. unfold make_symmetric.
  replace (((0 <? cst A)%Z && negb lower) || ((cst A <? 0)%Z && lower)) with false by (destruct lower; cbn [negb]; lia).
  replace (((cst A <? 0)%Z && negb lower) || ((0 <? cst A)%Z && lower)) with true by (destruct lower; cbn [negb]; lia). reflexivity.
Qed.
Print Assumptions C84_make_symmetric_other.

Lemma transpose_general_cst {V} {DV : Dflt V} (A B : csc V) : transpose_general A = Ok (Some B) -> cst B = 0%Z.
Proof.
  unfold transpose_general. destruct (cm A =? 0); [discriminate|]. cbv zeta. intros H.
  repeat match type of H with (bind ?m _ = _) => destruct m; [cbn [bind] in H|discriminate] end.
  repeat match type of H with context [let (_, _) := ?x in _] => destruct x end.
  repeat match type of H with (bind ?m _ = _) => destruct m; [cbn [bind] in H|discriminate] end.
  injection H as <-. reflexivity.
Qed.

Lemma vals_at_row {V} n (cols : nat -> list (nat * V)) c i : i < n -> vals_at i (row_of n cols c) = vals_at c (cols i).
Proof. intros Hi. unfold vals_at. rewrite row_of_filter by auto. rewrite map_map. reflexivity. Qed.

Lemma vals_at_scale {V} (mul : V -> V -> V) h i (l : list (nat * V)) : vals_at i (map (fun e => (fst e, mul h (snd e))) l) = map (mul h) (vals_at i l).
Proof. unfold vals_at. rewrite filter_map_comm, !map_map. reflexivity. Qed.

(** (A + A')/2, the wanted triangle, for a general square matrix: the entries are the positions of the
    triangle at which A or its transpose has one; the value at (i, c) adds the halves of the entries of A
    at (i, c) and at (c, i) *)
Theorem C84_make_symmetric_general : forall (V : Type) (DV : Dflt V) mul add half (A : csc V) (lower : bool),
  mat_ok A -> cm A = cn A -> 0 < cn A -> cst A = 0%Z ->
  let n := cn A in let cA := col (cp A) (ci A) (cx A) in
  exists B, make_symmetric mul add half A lower = Ok (false, Some B) /\ cm B = n /\ cn B = n /\ cst B = (if lower then -1 else 1)%Z /\ cpat B = cpat A /\
    wf_mat n n (cp B) (ci B) /\ cnnz B = (cp B).[n] /\
    (forall c, c < n -> let cB := col (cp B) (ci B) (cx B) c in
       NoDup (map fst cB) /\ sorted_le (map fst cB) /\
       forall i, In i (map fst cB) <-> (if lower then c <= i else i <= c) /\ (In i (map fst (cA c)) \/ (i < n /\ In c (map fst (cA i))))) /\
    (cpat A = false -> forall c i v, c < n -> In (i, v) (col (cp B) (ci B) (cx B) c) ->
       v = fsum add (map (mul half) (vals_at i (cA c)) ++ map (mul half) (vals_at c (cA i))) dflt).
Proof.
  intros V DV mul add half A lower MA Hsq Hn Hst n cA. unfold make_symmetric. rewrite Hst. cbn [Z.ltb Z.compare]. cbn [andb orb].
  assert (GT : wp (transpose_general A) (fun r => exists At, r = Some At /\ cm At = n /\ cn At = n /\ cnnz At = cnnz A /\ cpat At = cpat A /\
     rows_exact (cpat A) (cm A) (cn A) (cp A) (ci A) (cx A) (cp At) (ci At) (cx At))).
  { apply transpose_general_wp; auto; [intros; lia|]. intros _ At A1 A2 A3 A4 A5 A6. exists At. splits; auto. now rewrite A2. }
  destruct (transpose_general A) as [r|e] eqn:ET; [|easy]. destruct GT as (At & -> & T1 & T2 & T3 & T4 & T5). cbn [bind].
  pose proof (transpose_general_cst A At ET) as T6. destruct T5 as (U1 & U2 & U3 & U4 & U5). rewrite Hsq in U1, U2, U4, U5. fold n in U1, U2, U3, U4, U5.
  pose proof MA as MA'. destruct MA' as (W & NA & XA). fold n in NA, XA.
  assert (MAt : mat_ok At).
  { unfold mat_ok. rewrite T1, T2, T4, U2. splits; auto. lia. }
  destruct (C84_add V DV mul add A At half half true) as (C & EC & C1 & C2 & C3 & C4 & C5 & C6 & C7 & C8 & C9 & C10 & C11); auto; try lia.
  rewrite EC. cbn [bind]. fold n in C2, C5, C6, C7, C10, C11. rewrite Hsq in C1, C5. fold n in C1, C5. rewrite T4, orb_diag in *. rewrite C2.
  assert (GH : wp (make_half n (cp C) (ci C) (cpat A) (cx C) lower) (fun B => cm B = n /\ cn B = n /\ cpat B = cpat A /\ wf_mat n n (cp B) (ci B) /\ cnnz B = (cp B).[n] /\
     (forall i, i < n -> map fst (col (cp B) (ci B) (cx B) i) = map fst (half_col lower (col (cp C) (ci C) (cx C)) i)) /\
     (cpat A = false -> forall i, i < n -> col (cp B) (ci B) (cx B) i = half_col lower (col (cp C) (ci C) (cx C)) i))).
  { apply make_half_wp; auto.
    - intros Hp. rewrite C9, Hp. auto.
    - intros B B1 B2 B3 B4 B5 B6 B7 B8 _. splits; auto. }
  destruct (make_half n (cp C) (ci C) (cpat A) (cx C) lower) as [B|e]; [|easy]. destruct GH as (B1 & B2 & B3 & B4 & B5 & B6 & B7). cbn [bind].
  eexists. split; [reflexivity|]. cbn [cm cn cnnz cpat cst cp ci cx]. do 6 (split; [auto|]). split.
  - intros c Hc. cbv zeta. rewrite B6 by auto. destruct (C10 c Hc) as (R1 & R2 & R3).
    assert (HS : sorted_le (map fst (half_col lower (col (cp C) (ci C) (cx C)) c)) /\ NoDup (map fst (half_col lower (col (cp C) (ci C) (cx C)) c))).
    { specialize (R3 eq_refl). unfold half_col. generalize (fun e : nat * V => if lower then c <=? fst e else fst e <=? c). intros p.
      revert R3. generalize (col (cp C) (ci C) (cx C) c). induction l as [|e t IH]; intros H; [split; [apply sorted_le_nil|constructor]|].
      destruct H as [H1 H2]. destruct (IH H2) as [I1 I2]. cbn [filter]. destruct (p e); [|auto]. cbn [map].
      assert (H3 : forall x, In x (map fst (filter p t)) -> fst e < x).
      { intros x Hx. apply in_map_iff in Hx. destruct Hx as (y & <- & Hy). apply filter_In in Hy. now apply H1. }
      split; [apply sorted_le_cons; split; auto; intros y Hy; specialize (H3 y Hy); lia|]. constructor; auto. intros H4. specialize (H3 _ H4). lia. }
    destruct HS as [HS1 HS2]. splits; auto. intros i.
    assert (HH : In i (map fst (half_col lower (col (cp C) (ci C) (cx C)) c)) <-> (if lower then c <= i else i <= c) /\ In i (map fst (col (cp C) (ci C) (cx C) c))).
    { unfold half_col. split.
      - intros H. apply in_map_iff in H. destruct H as (e & <- & He). apply filter_In in He. destruct He as [He1 He2]. split; [destruct lower; lia|now apply in_map].
      - intros [H1 H2]. apply in_map_iff in H2. destruct H2 as (e & <- & He). apply in_map. apply filter_In. split; auto. destruct lower; lia. }
    rewrite HH, R2. unfold lin_col. rewrite map_app, in_app_iff, !map_map. cbn [fst].
    change (map (fun x => fst x) (col (cp A) (ci A) (cx A) c)) with (map fst (cA c)). change (map (fun x => fst x) (col (cp At) (ci At) (cx At) c)) with (map fst (col (cp At) (ci At) (cx At) c)).
    rewrite U4 by auto.
    assert (HR : In i (map fst (row_of n cA c)) <-> i < n /\ In c (map fst (cA i))).
    { split.
      - intros H. apply in_map_iff in H. destruct H as ([j v] & <- & H). apply row_of_In in H. cbn [fst]. split; [tauto|]. apply in_map_iff. exists (c, v). tauto.
      - intros [H1 H2]. apply in_map_iff in H2. destruct H2 as ([j v] & E & H). cbn [fst] in E. subst j. apply in_map_iff. exists (i, v). split; auto. now apply row_of_In. }
    fold cA. rewrite HR. reflexivity.
  - intros Hp c i v Hc Hin. rewrite B7 in Hin by auto. unfold half_col in Hin. apply filter_In in Hin. destruct Hin as [Hin _].
    assert (Hi : i < n) by (apply (col_In_bound _ _ _ _ _ _ (i, v) C5 Hc Hin)).
    rewrite (C11 Hp ltac:(congruence) c Hc i v Hin). f_equal. unfold lin_col. rewrite vals_at_app, !vals_at_scale. f_equal. f_equal. rewrite U5 by auto. now apply vals_at_row.
Qed.
Print Assumptions C84_make_symmetric_general.

Example C84_symmetric_case :
  make_symmetric Z.mul Z.add 1%Z (mkCSC 3 3 4 false 0%Z [0;2;3;4] [0;2;1;0] [1;3;2;4]%Z) false =
   Ok (false, Some (mkCSC 3 3 3 false 1%Z [0;1;2;3] [0;1;0] [2;4;7]%Z)).
Proof. vm_compute. reflexivity. Qed.
