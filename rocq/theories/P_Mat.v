(** Properties C33-C35 and C52-C56: the sparse matrix conversions. *)
From Coq Require Import ZifyBool ZifyNat.
From Verif Require Import Base Lib Lib2 Lib3 Spec SpecMat Check M_Mat L_Mat L_Mat2 L_Mat3 L_Mat4.

(** C33.  Row [r] of the result is the list of the entries of row [r] of the input, by
    increasing column, with multiplicity; nothing else is stored. *)
Theorem C33_csc_to_csr_exact :
  forall (V : Type) (DV : Dflt V) nrow ncol Ap Ai (Ax : list V),
  wf_mat nrow ncol Ap Ai -> Ap.[ncol] <= length Ax ->
  exists rowptr colind values, csc_to_csr_arr nrow ncol Ap Ai Ax = Ok (rowptr, colind, values) /\
    wf_mat ncol nrow rowptr colind /\ rowptr.[nrow] = Ap.[ncol] /\
    length rowptr = S nrow /\ length colind = Ap.[ncol] /\ length values = Ap.[ncol] /\
    (forall r, r < nrow -> col rowptr colind values r = row_of ncol (col Ap Ai Ax) r) /\
    (forall r, r < nrow -> nondecreasing (col rowptr colind values r)) /\
    (forall r c v, r < nrow -> (In (c, v) (col rowptr colind values r) <-> c < ncol /\ In (r, v) (col Ap Ai Ax c))).
Proof.
  intros V DV m n Ap Ai Ax W HX.
  assert (G : wp (csc_to_csr_arr m n Ap Ai Ax) (fun '(p, i, x) => length p = S m /\ length i = Ap.[n] /\ length x = Ap.[n] /\
    rows_exact false m n Ap Ai Ax p i x)).
  { apply csc_to_csr_arr_wp; auto. }
  apply wp_ok in G. destruct G as ([[p i] x] & -> & L1 & L2 & L3 & (WB & EB & LB & _ & RB)).
  exists p, i, x. splits; auto.
  - intros r Hr. rewrite RB by auto. apply row_of_sorted.
  - intros r c v Hr. rewrite RB by auto. apply row_of_In.
Qed.
Print Assumptions C33_csc_to_csr_exact.

(** Converting there and back restores the arrays of a matrix with sorted columns. *)
Theorem C33_roundtrip :
  forall (V : Type) (DV : Dflt V) nrow ncol Ap Ai (Ax : list V),
  wf_mat nrow ncol Ap Ai -> Ap.[ncol] <= length Ax -> (forall c, c < ncol -> nondecreasing (col Ap Ai Ax c)) ->
  exists p i x, csc_to_csr_arr nrow ncol Ap Ai Ax = Ok (p, i, x) /\
    csr_to_csc_arr nrow ncol i p x = Ok (firstn (S ncol) Ap, firstn Ap.[ncol] Ai, firstn Ap.[ncol] Ax).
Proof.
  intros V DV m n Ap Ai Ax W HX HS.
  assert (G : wp (csc_to_csr_arr m n Ap Ai Ax) (fun '(p, i, x) => rows_exact false m n Ap Ai Ax p i x)).
  { apply csc_to_csr_arr_wp; auto. }
  apply wp_ok in G. destruct G as ([[p i] x] & -> & RE). exists p, i, x. split; auto. unfold csr_to_csc_arr.
  pose proof (roundtrip_wp m n Ap Ai Ax p i x (fun r => r = (firstn (S n) Ap, firstn Ap.[n] Ai, firstn Ap.[n] Ax)) W HX HS RE eq_refl) as G.
  apply wp_ok in G. destruct G as (r & -> & ->). reflexivity.
Qed.
Print Assumptions C33_roundtrip.

(** The overload on matrix objects, with or without values. *)
Theorem C33_csc_to_csr_matrix :
  forall (V : Type) (DV : Dflt V) (A : csc V), mat_ok A -> 0 < cm A ->
  exists B, csc_to_csr A = Ok B /\ cm B = cm A /\ cn B = cn A /\ cpat B = cpat A /\
    rows_exact (cpat A) (cm A) (cn A) (cp A) (ci A) (cx A) (cp B) (ci B) (cx B).
Proof.
  intros V DV A HA Hm.
  assert (G : wp (csc_to_csr A) (fun B => cm B = cm A /\ cn B = cn A /\ cpat B = cpat A /\
    rows_exact (cpat A) (cm A) (cn A) (cp A) (ci A) (cx A) (cp B) (ci B) (cx B))).
  { apply csc_to_csr_wp; auto. }
  apply wp_ok in G. destruct G as (B & -> & HB). exists B. auto.
Qed.
Print Assumptions C33_csc_to_csr_matrix.

(** C34.  Half and full storage. *)
Theorem C34_make_half_exact :
  forall (V : Type) (DV : Dflt V) n Ap Ai (Ax : list V) pat lower,
  wf_mat n n Ap Ai -> 0 < n -> (pat = false -> Ap.[n] <= length Ax) ->
  exists B, make_half n Ap Ai pat Ax lower = Ok B /\ cm B = n /\ cn B = n /\ cpat B = pat /\
    wf_mat n n (cp B) (ci B) /\ cnnz B = (cp B).[n] /\
    (forall c, c < n -> map fst (col (cp B) (ci B) (cx B) c) = map fst (half_col lower (col Ap Ai Ax) c)) /\
    (pat = false -> forall c, c < n -> col (cp B) (ci B) (cx B) c = half_col lower (col Ap Ai Ax) c) /\
    cst B = (-1)%Z /\ (pat = false -> (cp B).[n] <= length (cx B)).
Proof.
  intros V DV n Ap Ai Ax pat lower W Hn HX.
  assert (G : wp (make_half n Ap Ai pat Ax lower) (fun B => cm B = n /\ cn B = n /\ cpat B = pat /\
    wf_mat n n (cp B) (ci B) /\ cnnz B = (cp B).[n] /\
    (forall c, c < n -> map fst (col (cp B) (ci B) (cx B) c) = map fst (half_col lower (col Ap Ai Ax) c)) /\
    (pat = false -> forall c, c < n -> col (cp B) (ci B) (cx B) c = half_col lower (col Ap Ai Ax) c) /\
    cst B = (-1)%Z /\ (pat = false -> (cp B).[n] <= length (cx B)))).
  { apply make_half_wp; auto. intros B; intros; splits; auto. }
  apply wp_ok in G. destruct G as (B & -> & HB). exists B. auto.
Qed.
Print Assumptions C34_make_half_exact.

Lemma full_col_In {V} n (cols : nat -> list (nat * V)) c r v : c < n -> (forall i e, i < n -> In e (cols i) -> fst e < n) ->
  (In (r, v) (full_col n cols c) <-> In (r, v) (cols c) \/ (r < n /\ r <> c /\ In (c, v) (cols r))).
Proof.
  intros Hc HB. unfold full_col. rewrite in_flat_map. split.
  - intros (i & Hi & H). apply in_seq in Hi. apply in_flat_map in H. destruct H as ([r' v'] & H1 & H2). cbn [fst snd] in H2.
    apply in_app_or in H2. destruct H2 as [H2|H2].
    + destruct (Nat.eqb_spec i c) as [->|]; [|easy]. destruct H2 as [E|[]]. inversion E; subst. now left.
    + destruct (Nat.eqb_spec r' i) as [->|Hne]; [easy|]. destruct (Nat.eqb_spec r' c) as [->|]; [|easy].
      destruct H2 as [E|[]]. inversion E; subst. right. splits; auto; lia.
  - intros [H|(Hr & Hne & H)].
    + exists c. split; [apply in_seq; lia|]. apply in_flat_map. exists (r, v). split; auto. apply in_or_app. left.
      rewrite Nat.eqb_refl. now left.
    + exists r. split; [apply in_seq; lia|]. apply in_flat_map. exists (c, v). split; auto. apply in_or_app. right. cbn [fst snd].
      replace (c =? r) with false by lia. rewrite Nat.eqb_refl. now left.
Qed.

Theorem C34_make_full_exact :
  forall (V : Type) (DV : Dflt V) (A : csc V),
  mat_ok A -> cm A = cn A -> 0 < cn A -> cst A <> 0%Z -> (cp A).[cn A] <= length (cx A) ->
  exists B, make_full A = Ok (Some B) /\ cm B = cn A /\ cn B = cn A /\ wf_mat (cn A) (cn A) (cp B) (ci B) /\
    cnnz B = (cp B).[cn A] /\ cst B = 0%Z /\ cpat B = false /\ (cp B).[cn A] <= length (cx B) /\
    (forall c, c < cn A -> col (cp B) (ci B) (cx B) c = full_col (cn A) (col (cp A) (ci A) (cx A)) c) /\
    (forall r c v, c < cn A -> (In (r, v) (col (cp B) (ci B) (cx B) c) <->
       In (r, v) (col (cp A) (ci A) (cx A) c) \/ (r < cn A /\ r <> c /\ In (c, v) (col (cp A) (ci A) (cx A) r)))).
Proof.
  intros V DV A HA Hsq Hn Hst HX.
  assert (G : wp (make_full A) (fun o => exists B, o = Some B /\ cm B = cn A /\ cn B = cn A /\ wf_mat (cn A) (cn A) (cp B) (ci B) /\
    cnnz B = (cp B).[cn A] /\ cst B = 0%Z /\ cpat B = false /\ (cp B).[cn A] <= length (cx B) /\
    (forall c, c < cn A -> col (cp B) (ci B) (cx B) c = full_col (cn A) (col (cp A) (ci A) (cx A)) c))).
  { apply make_full_wp; auto. intros B; intros. exists B. splits; auto. }
  apply wp_ok in G. destruct G as (o & -> & (B & -> & B1 & B2 & B3 & B4 & B5 & B5' & B5'' & B6)). exists B. splits; auto.
  intros r c v Hc. rewrite B6 by auto. apply full_col_In; auto. intros i e Hi He.
  destruct HA as (W & _). rewrite Hsq in W. apply (col_In_bound (cn A) (cn A) (cp A) (ci A) (cx A) i e); auto.
Qed.
Print Assumptions C34_make_full_exact.

(** C35.  Permutation helpers. *)
Theorem C35_inv_perm_inverts :
  forall n perm iperm, is_perm n perm -> length iperm = n ->
  exists ip, inv_perm n perm iperm = Ok ip /\ is_perm n ip /\
    (forall i, i < n -> ip.[perm.[i]] = i) /\ (forall i, i < n -> perm.[ip.[i]] = i).
Proof.
  intros n perm iperm HP HL.
  assert (G : wp (inv_perm n perm iperm) (fun ip => length ip = n /\ forall i, i < n -> ip.[perm.[i]] = i)).
  { apply inv_perm_wp; auto; [lia|]. intros ip; intros; split; [lia|auto]. }
  apply wp_ok in G. destruct G as (ip & -> & G1 & G2). exists ip. split; auto.
  destruct HP as (P1 & P2 & P3).
  assert (HO : forall x, x < n -> exists i, i < n /\ perm.[i] = x).
  { intros x Hx. apply P3 in Hx. apply In_aget in Hx. destruct Hx as (i & Hi & E). exists i. split; auto. lia. }
  assert (G3 : forall i, i < n -> perm.[ip.[i]] = i).
  { intros i Hi. destruct (HO i Hi) as (j & Hj & <-). now rewrite G2. }
  splits; auto. apply is_perm_intro; auto.
  - apply (NoDup_nth ip dflt). intros i j Hi Hj E. change (ip.[i] = ip.[j]) in E. rewrite <- (G3 i), <- (G3 j) by lia. congruence.
  - intros x Hx. apply In_aget in Hx. destruct Hx as (k & Hk & <-). destruct (HO k ltac:(lia)) as (j & Hj & <-). rewrite G2; auto.
Qed.
Print Assumptions C35_inv_perm_inverts.

Theorem C35_reorder_array_inverse :
  forall (A : Type) (DA : Dflt A) n (arr ws : list A) perm iperm,
  is_perm n perm -> length iperm = n -> length arr = n -> length ws = n ->
  exists ip arr1 ws1 ws2, inv_perm n perm iperm = Ok ip /\
    reorder_array n arr perm ws = Ok (arr1, ws1) /\ (forall i, i < n -> arr1.[i] = arr.[perm.[i]]) /\
    reorder_array n arr1 ip ws1 = Ok (arr, ws2).
Proof.
  intros A DA n arr ws perm iperm HP H1 H2 H3. destruct (C35_inv_perm_inverts n perm iperm HP H1) as (ip & E & IP & G1 & G2).
  assert (L : forall p, is_perm n p -> forall i, i < n -> p.[i] < n).
  { intros p (P1 & P2 & P3) i Hi. apply P3. apply aget_In. lia. }
  assert (R : forall (a w : list A) p, is_perm n p -> length a = n -> length w = n ->
     wp (reorder_array n a p w) (fun '(a', w') => length a' = n /\ length w' = n /\ forall i, i < n -> a'.[i] = a.[p.[i]])).
  { intros a w p Hp La Lw. assert (LP : length p = n) by apply Hp.
    assert (K : wp (reorder_array n a p w) (fun '(a', w') => length a' = n /\ forall i, i < n -> a'.[i] = a.[p.[i]])).
    { apply reorder_array_wp; auto; try lia; [intros i Hi; specialize (L p Hp i Hi); lia|].
      intros a' w' La' Ha' _. split; auto. lia. }
    assert (K2 : Lib2.pc (reorder_array n a p w) (fun '(a', w') => length w' = n)).
    { unfold reorder_array. apply pc_bind. apply (pc_mono _ (fun w' => length w' = n)).
      - apply pc_for; auto. intros i s Hs. apply pc_bind. apply pc_any. intros x. apply pc_bind. apply pc_any. intros v.
        apply pc_wr. congruence.
      - intros w' Hw'. apply pc_bind. apply pc_any. intros a'. apply pc_ret. auto. }
    apply wp_ok in K. destruct K as ([a' w'] & E1 & K1 & K3). rewrite E1. cbn [wp]. specialize (K2 _ E1). auto. }
  pose proof (R arr ws perm HP H2 H3) as K. apply wp_ok in K. destruct K as ([a1 w1] & E1 & K1 & K2 & K3).
  pose proof (R a1 w1 ip IP K1 K2) as K. apply wp_ok in K. destruct K as ([a2 w2] & E2 & J1 & J2 & J3).
  exists ip, a1, w1, w2. splits; auto. rewrite E2. repeat f_equal. apply list_ext; [lia|].
  intros i Hi. rewrite J3 by lia. rewrite K3 by (apply L; auto; lia). rewrite G2 by lia. reflexivity.
Qed.
Print Assumptions C35_reorder_array_inverse.

(** C52.  transpose_general. *)
Theorem C52_transpose_exact :
  forall (V : Type) (DV : Dflt V) (A : csc V), mat_ok A ->
  (cm A = 0 -> transpose_general A = Ok None) /\
  (0 < cm A -> exists B, transpose_general A = Ok (Some B) /\ cm B = cn A /\ cn B = cm A /\ cpat B = cpat A /\
     rows_exact (cpat A) (cm A) (cn A) (cp A) (ci A) (cx A) (cp B) (ci B) (cx B)).
Proof.
  intros V DV A HA. split.
  - intros E. unfold transpose_general. now rewrite E.
  - intros Hm. assert (G : wp (transpose_general A) (fun o => exists B, o = Some B /\ cm B = cn A /\ cn B = cm A /\ cpat B = cpat A /\
      rows_exact (cpat A) (cm A) (cn A) (cp A) (ci A) (cx A) (cp B) (ci B) (cx B))).
    { apply transpose_general_wp; auto; [lia|]. intros _ B; intros. exists B. splits; auto. }
    apply wp_ok in G. destruct G as (o & -> & B & -> & HB). exists B. auto.
Qed.
Print Assumptions C52_transpose_exact.

(** C53.  permute_general: column [k] of the result is column [q[k]], its rows renamed by
    [pinv]. *)
Theorem C53_permute_general_exact :
  forall (V : Type) (DV : Dflt V) (A : csc V) pinv q,
  mat_ok A -> (cp A).[cn A] <= length (cx A) -> 0 < cn A -> is_perm (cn A) q -> is_perm (cm A) pinv ->
  exists C, permute_general A (Some pinv) (Some q) = Ok C /\ cm C = cm A /\ cn C = cn A /\ wf_mat (cm A) (cn A) (cp C) (ci C) /\
    (forall k, k < cn A -> col (cp C) (ci C) (cx C) k =
       map (fun e => (pinv.[fst e], snd e)) (col (cp A) (ci A) (cx A) q.[k])).
Proof.
  intros V DV A pinv q HA HX Hn Hq Hp.
  assert (G : wp (permute_general A (Some pinv) (Some q)) (fun C => cm C = cm A /\ cn C = cn A /\ wf_mat (cm A) (cn A) (cp C) (ci C) /\
    (forall k, k < cn A -> col (cp C) (ci C) (cx C) k =
       map (fun e => (pinv.[fst e], snd e)) (col (cp A) (ci A) (cx A) q.[k])))).
  { apply permute_general_wp; auto.
    destruct Hp as (L & _ & P). split; [lia|]. intros r Hr. apply P. apply aget_In. lia. }
  apply wp_ok in G. destruct G as (C & -> & HC). exists C. auto.
Qed.
Print Assumptions C53_permute_general_exact.

(** C54.  csr_to_csc on matrix objects: exact for square matrices; it passes the
    dimensions in the wrong order, so that non-square ones fail or lose entries. *)
Theorem C54_csr_to_csc_square :
  forall (V : Type) (DV : Dflt V) (A : csc V),
  wf_mat (cn A) (cn A) (cp A) (ci A) -> cm A = cn A -> (cp A).[cn A] <= length (cx A) ->
  exists B, csr_to_csc A = Ok B /\ cm B = cm A /\ cn B = cn A /\ cnnz B = (cp A).[cn A] /\
    rows_exact false (cn A) (cn A) (cp A) (ci A) (cx A) (cp B) (ci B) (cx B).
Proof.
  intros V DV A W Hsq HX.
  assert (G : wp (csr_to_csc A) (fun B => cm B = cm A /\ cn B = cn A /\ cnnz B = (cp A).[cn A] /\
    rows_exact false (cn A) (cn A) (cp A) (ci A) (cx A) (cp B) (ci B) (cx B))).
  { unfold csr_to_csc. rewrite Hsq. apply wp_bind. apply csc_to_csr_arr_wp; auto. intros p i x L1 L2 L3 RE.
    wp1. apply wp_rd; [lia|]. cbn [wp cm cn cnnz cp ci cx]. splits; auto. apply RE. }
  apply wp_ok in G. destruct G as (B & -> & HB). exists B. auto.
Qed.
Print Assumptions C54_csr_to_csc_square.

(** a 1 x 3 row [1 2 3]: its second dimension is taken as the number of compressed
    rows.  A 2 x 1 matrix loses its second row. *)
Theorem C54_csr_to_csc_nonsquare_refuted :
  (exists A : csc Z, cm A = 1 /\ cn A = 3 /\ wf_mat (cn A) (cm A) (cp A) (ci A) /\ length (cx A) = (cp A).[cm A] /\
     csr_to_csc A = Err OOB) /\
  (exists A B : csc Z, cm A = 2 /\ cn A = 1 /\ wf_mat (cn A) (cm A) (cp A) (ci A) /\ length (cx A) = (cp A).[cm A] /\
     csr_to_csc A = Ok B /\ (cp A).[cm A] = 2 /\ cnnz B = 1).
Proof.
  split.
  - exists (mkCSC 1 3 3 false 0%Z [0;3] [0;1;2] [1;2;3]%Z). unfold wf_mat.
    splits; try reflexivity; try (cbn; lia).
    + intros i Hi. replace i with 0 by (cbn in Hi; lia). vm_compute. lia.
    + intros k Hk. change (k < 3) in Hk. destruct k as [|[|[|k]]]; [vm_compute; lia..|lia].
  - exists (mkCSC 2 1 2 false 0%Z [0;1;2] [0;0] [7;8]%Z).
    exists (mkCSC 2 1 1 false 0%Z [0;1;1] [0] [7]%Z). unfold wf_mat.
    splits; try reflexivity; try (cbn; lia).
    + intros i Hi. cbn in Hi. destruct i as [|[|i]]; [vm_compute; lia..|lia].
    + intros k Hk. change (k < 2) in Hk. destruct k as [|[|k]]; [vm_compute; lia..|lia].
Qed.
Print Assumptions C54_csr_to_csc_nonsquare_refuted.

(** C55.  copy_from_to never copies the pointers of its source. *)
Theorem C55_copy_from_to_keeps_pointers :
  forall (V : Type) (DV : Dflt V) n (src dst D : csc V), copy_from_to n src dst = Ok D -> cp D = cp dst.
Proof.
  intros V DV n src dst D E.
  assert (G : Lib2.pc (copy_from_to n src dst) (fun D => cp D = cp dst)).
  { unfold copy_from_to. apply pc_bind. apply (pc_mono _ (fun '(p, i, x) => p = cp dst)).
    - apply pc_for; auto. intros c [[p i] x] ->. apply pc_bind. intros v Ev. apply pc_bind. intros p' Ep.
      apply pc_bind. apply pc_any. intros a. apply pc_bind. apply pc_any. intros b. apply pc_bind. apply pc_any. intros [i' x'].
      apply pc_ret. destruct (Nat.lt_ge_cases c (length (cp dst))) as [Hc|Hc]; [|rewrite rd_oob in Ev by auto; discriminate]. rewrite rd_ok in Ev by auto. inversion Ev; subst v. rewrite wr_ok in Ep by auto. inversion Ep.
      apply list_ext; [now rewrite upd_length|]. intros k Hk. destruct (Nat.eq_dec k c) as [->|Hne].
      + now rewrite aget_upd_eq by auto.
      + now rewrite aget_upd_ne by auto.
    - intros [[p i] x] ->. now apply pc_ret. }
  exact (G D E).
Qed.
Print Assumptions C55_copy_from_to_keeps_pointers.

(** so that copying the 2 x 2 diagonal matrix over the matrix with an empty first column
    yields neither *)
Theorem C55_copy_from_to_refuted :
  exists (src dst D : csc Z), wf_mat 2 2 (cp src) (ci src) /\ wf_mat 2 2 (cp dst) (ci dst) /\ copy_from_to 2 src dst = Ok D /\
    col (cp D) (ci D) (cx D) 0 <> col (cp src) (ci src) (cx src) 0.
Proof.
  exists (mkCSC 2 2 2 false 0%Z [0;1;2] [0;1] [5;6]%Z), (mkCSC 2 2 2 false 0%Z [0;0;2] [0;1] [1;2]%Z),
    (mkCSC 2 2 2 false 0%Z [0;0;2] [0;1] [5;6]%Z).
  assert (forall p i, p.[0] = 0 -> length p = 3 -> p.[1] <= 2 -> p.[2] = 2 -> length i = 2 -> i.[0] < 2 -> i.[1] < 2 -> wf_mat 2 2 p i) as W.
  { intros p i E0 L E1 E2 Li I0 I1. unfold wf_mat. splits; auto; try lia.
    - intros j Hj. destruct j as [|[|j]]; lia.
    - intros k Hk. rewrite E2 in Hk. destruct k as [|[|k]]; lia. }
  splits; try (apply W; cbn; lia); [reflexivity|]. vm_compute. discriminate.
Qed.
Print Assumptions C55_copy_from_to_refuted.

(** C56.  tridiag: exact for every order but 1, where it writes outside its arrays. *)
Definition tri_col {V} (n : nat) (a0 a1 a2 : V) (k : nat) : list (nat * V) :=
  (if k =? 0 then [] else [(k - 1, a0)]) ++ [(k, a1)] ++ (if S k =? n then [] else [(S k, a2)]).

Theorem C56_tridiag_exact :
  forall (V : Type) (DV : Dflt V) n (a0 a1 a2 : V), 2 <= n ->
  exists A, tridiag n a0 a1 a2 = Ok A /\ cm A = n /\ cn A = n /\ cnnz A = (cp A).[n] /\ wf_mat n n (cp A) (ci A) /\
    (forall k, k < n -> col (cp A) (ci A) (cx A) k = tri_col n a0 a1 a2 k).
Proof.
  intros V DV n a0 a1 a2 Hn.
  set (st k := if k =? n then 3 * n - 2 else 3 * k - 1).
  set (iv j := if j <? 2 then j else (j + 1) / 3 - 1 + (j + 1) mod 3).
  set (xv j := match (j + 1) mod 3 with 0 => a0 | 1 => a1 | _ => a2 end).
  assert (K : wp (tridiag n a0 a1 a2) (fun A => cm A = n /\ cn A = n /\ cnnz A = 3 * n - 2 /\
     length (cp A) = S n /\ length (ci A) = 3 * n - 2 /\ length (cx A) = 3 * n - 2 /\
     (forall k, k <= n -> (cp A).[k] = st k) /\ (forall j, j < 3 * n - 2 -> (ci A).[j] = iv j /\ (cx A).[j] = xv j))).
  { assert (DM : forall q r, r < 3 -> (3 * q + r) / 3 = q /\ (3 * q + r) mod 3 = r).
    { intros q r Hr. split; [symmetry; apply (Nat.div_unique _ _ _ r); lia|symmetry; apply (Nat.mod_unique _ _ q); lia]. }
    assert (IV : forall k r, 0 < k -> r < 3 -> iv (3 * k - 1 + r) = k - 1 + r /\ xv (3 * k - 1 + r) = (match r with 0 => a0 | 1 => a1 | _ => a2 end)).
    { intros k r Hk Hr. unfold iv, xv. replace (3 * k - 1 + r + 1) with (3 * k + r) by lia. destruct (DM k r Hr) as [-> ->].
      replace (3 * k - 1 + r <? 2) with false by lia. split; auto. }
    unfold tridiag, new_csc. cbn [cp ci cx cm cn]. cbv zeta. replace (0 <? n) with true by lia. apply wp_bind. apply wp_wr; [cbn [length]; rewrite ?repeat_length; lia|].
    apply wp_bind. apply (wp_for (fun k '(p, i, x, ind) => length p = S n /\ length i = 3 * n - 2 /\ length x = 3 * n - 2 /\ ind = st k /\
      (forall t, t <= k -> p.[t] = st t) /\ (forall j, j < ind -> i.[j] = iv j /\ x.[j] = xv j))).
    - lia.
    - splits; rewrite ?upd_length, ?repeat_length; auto; try lia.
      + unfold st. replace (0 =? n) with false by lia. reflexivity.
      + intros t Ht. replace t with 0 by lia. rewrite aget_upd_eq by (rewrite repeat_length; lia). unfold st. now replace (0 =? n) with false by lia.
    - intros k [[[p i] x] ind] Hk (Lp & Li & Lx & -> & HP & HJ). apply wp_bind. apply wp_rd; [lia|].
      assert (Ek : st k = 3 * k - 1) by (unfold st; now replace (k =? n) with false by lia).
      rewrite (HP k) by lia. rewrite Ek in *.
      destruct (Nat.eqb_spec k 0) as [->|H0]; [|destruct (Nat.eqb_spec k (n - 1)) as [E|H1]].
      + cbn [orb]. assert (E1 : st 1 = 2) by (unfold st; now replace (1 =? n) with false by lia). wp1. apply wp_wr; [lia|]. repeat (wp1; apply wp_wr; [rewrite ?upd_length; lia|]).
        cbn [wp]. splits; rewrite ?upd_length; auto.
        * intros t Ht. destruct (Nat.eq_dec t 1) as [->|]; [rewrite aget_upd_eq by lia; cbn; lia|]. rewrite aget_upd_ne by lia. apply HP. lia.
        * intros j Hj. destruct j as [|[|j]]; [| |lia].
          -- rewrite (aget_upd_ne _ (0 + 1)) by lia. rewrite (aget_upd_ne _ (0 + 1)) by lia. rewrite !aget_upd_eq by lia. split; reflexivity.
          -- change 1 with (0 + 1) at 1 3. simpl Nat.add. rewrite !aget_upd_eq by (rewrite upd_length; lia). split; reflexivity.
      + cbn [orb]. assert (E1 : st (S k) = 3 * k - 1 + 2) by (unfold st; replace (S k =? n) with true by lia; lia).
        wp1. apply wp_wr; [lia|]. repeat (wp1; apply wp_wr; [rewrite ?upd_length; lia|]).
        cbn [wp]. splits; rewrite ?upd_length; auto; try lia.
        * intros t Ht. destruct (Nat.eq_dec t (S k)) as [->|]; [rewrite aget_upd_eq by lia; lia|]. rewrite aget_upd_ne by lia. apply HP. lia.
        * intros j Hj. destruct (Nat.eq_dec j (3 * k - 1)) as [->|N1]; [|destruct (Nat.eq_dec j (3 * k - 1 + 1)) as [->|N2]].
          -- rewrite !(aget_upd_ne _ (3 * k - 1 + 1)) by lia. rewrite !aget_upd_eq by lia. destruct (IV k 0) as [A1 A2]; try lia.
             rewrite Nat.add_0_r in A1, A2. rewrite A1, A2. split; [lia|auto].
          -- rewrite !aget_upd_eq by (rewrite upd_length; lia). destruct (IV k 1) as [A1 A2]; try lia. rewrite A1, A2. split; [lia|auto].
          -- rewrite !aget_upd_ne by lia. apply HJ. lia.
      + cbn [orb]. assert (E1 : st (S k) = 3 * k - 1 + 3) by (unfold st; replace (S k =? n) with false by lia; lia).
        wp1. apply wp_wr; [lia|]. repeat (wp1; apply wp_wr; [rewrite ?upd_length; lia|]).
        cbn [wp]. splits; rewrite ?upd_length; auto; try lia.
        * intros t Ht. destruct (Nat.eq_dec t (S k)) as [->|]; [rewrite aget_upd_eq by lia; lia|]. rewrite aget_upd_ne by lia. apply HP. lia.
        * intros j Hj. destruct (Nat.eq_dec j (3 * k - 1)) as [->|N1]; [|destruct (Nat.eq_dec j (3 * k - 1 + 1)) as [->|N2];
            [|destruct (Nat.eq_dec j (3 * k - 1 + 2)) as [->|N3]]].
          -- rewrite !(aget_upd_ne _ (3 * k - 1 + 2)), !(aget_upd_ne _ (3 * k - 1 + 1)) by lia. rewrite !aget_upd_eq by lia. destruct (IV k 0) as [A1 A2]; try lia.
             rewrite Nat.add_0_r in A1, A2. rewrite A1, A2. split; [lia|auto].
          -- rewrite !(aget_upd_ne _ (3 * k - 1 + 2)) by lia. rewrite !aget_upd_eq by (rewrite upd_length; lia). destruct (IV k 1) as [A1 A2]; try lia. rewrite A1, A2. split; [lia|auto].
          -- rewrite !aget_upd_eq by (rewrite ?upd_length; lia). destruct (IV k 2) as [A1 A2]; try lia. rewrite A1, A2. split; [lia|auto].
          -- rewrite !aget_upd_ne by lia. apply HJ. lia.
    - intros [[[p i] x] ind] (Lp & Li & Lx & -> & HP & HJ). cbn [wp cm cn cnnz cp ci cx]. splits; auto.
      intros j Hj. apply HJ. unfold st. rewrite Nat.eqb_refl. lia. }
  apply wp_ok in K. destruct K as (A & -> & K1 & K2 & K3 & K4 & K5 & K6 & K7 & K8). exists A.
  assert (S0 : st n = 3 * n - 2) by (unfold st; now rewrite Nat.eqb_refl).
  assert (SK : forall k, k < n -> st k = 3 * k - 1) by (intros k Hk; unfold st; now replace (k =? n) with false by lia).
  splits; auto; [rewrite K7 by lia; lia| |].
  - unfold wf_mat. splits; try lia.
    + rewrite K7 by lia. rewrite SK by lia. lia.
    + intros k Hk. rewrite !K7 by lia. unfold st. destruct (Nat.eqb_spec k n), (Nat.eqb_spec (S k) n); lia.
    + rewrite K7 by lia. lia.
    + intros j Hj. rewrite K7, S0 in Hj by lia. rewrite (proj1 (K8 j Hj)). unfold iv. destruct (Nat.ltb_spec j 2); [lia|].
      pose proof (Nat.div_mod (j + 1) 3). pose proof (Nat.mod_upper_bound (j + 1) 3). lia.
  - intros k Hk. unfold col, tri_col. rewrite !K7 by lia. rewrite SK by lia.
    assert (IV : forall r, 0 < k -> r < 3 -> iv (3 * k - 1 + r) = k - 1 + r /\ xv (3 * k - 1 + r) = (match r with 0 => a0 | 1 => a1 | _ => a2 end)).
    { intros r Hk0 Hr. unfold iv, xv. replace (3 * k - 1 + r + 1) with (3 * k + r) by lia.
      replace ((3 * k + r) / 3) with k by (apply (Nat.div_unique _ _ _ r); lia).
      replace ((3 * k + r) mod 3) with r by (apply (Nat.mod_unique _ _ k); lia).
      replace (3 * k - 1 + r <? 2) with false by lia. split; auto. }
    destruct (Nat.eqb_spec k 0) as [->|H0]; [|destruct (Nat.eqb_spec (S k) n) as [E|H1]].
    + rewrite SK by lia. replace (1 =? n) with false by lia. cbn [Nat.mul Nat.sub Nat.add seq map app].
      rewrite (proj1 (K8 0 ltac:(lia))), (proj2 (K8 0 ltac:(lia))), (proj1 (K8 1 ltac:(lia))), (proj2 (K8 1 ltac:(lia))). reflexivity.
    + rewrite E, S0. replace (3 * n - 2 - (3 * k - 1)) with 2 by lia. cbn [seq map app].
      replace (S (3 * k - 1)) with (3 * k - 1 + 1) by lia. destruct (K8 (3 * k - 1)) as [-> ->]; [lia|]. destruct (K8 (3 * k - 1 + 1)) as [-> ->]; [lia|].
      destruct (IV 0) as [A1 A2]; try lia. rewrite Nat.add_0_r in A1, A2. rewrite A1, A2. destruct (IV 1) as [-> ->]; try lia. rewrite ?Nat.add_0_r; replace (k - 1 + 1) with k by lia; try replace (k - 1 + 2) with (S k) by lia; reflexivity.
    + rewrite SK by lia. replace (3 * S k - 1 - (3 * k - 1)) with 3 by lia. cbn [seq map app].
      replace (S (S (3 * k - 1))) with (3 * k - 1 + 2) by lia. replace (S (3 * k - 1)) with (3 * k - 1 + 1) by lia.
      destruct (K8 (3 * k - 1)) as [-> ->]; [lia|]. destruct (K8 (3 * k - 1 + 1)) as [-> ->]; [lia|]. destruct (K8 (3 * k - 1 + 2)) as [-> ->]; [lia|].
      destruct (IV 0) as [A1 A2]; try lia. rewrite Nat.add_0_r in A1, A2. rewrite A1, A2. destruct (IV 1) as [-> ->]; try lia. destruct (IV 2) as [-> ->]; try lia. rewrite ?Nat.add_0_r; replace (k - 1 + 1) with k by lia; try replace (k - 1 + 2) with (S k) by lia; reflexivity.
Qed.
Print Assumptions C56_tridiag_exact.

Theorem C56_tridiag_one_refuted :
  forall (V : Type) (DV : Dflt V) (a0 a1 a2 : V), tridiag 1 a0 a1 a2 = Err OOB.
Proof. reflexivity. Qed.
Print Assumptions C56_tridiag_one_refuted.

(** C57.  A matrix without rows: csc_to_csr writes through the null row pointer of the
    CSR object it just created. *)
Theorem C57_csc_to_csr_no_rows_refuted :
  forall (V : Type) (DV : Dflt V) (A : csc V), mat_ok A -> cm A = 0 -> csc_to_csr A = Err OOB.
Proof.
  intros V DV A (W & _) E. rewrite E in W. destruct W as (W1 & W2 & W3 & W4 & W5). unfold csc_to_csr.
  assert (Z0 : (cp A).[cn A] = 0) by (destruct (cp A).[cn A] as [|k] eqn:Ek; auto; specialize (W5 0 ltac:(lia)); lia).
  rewrite rd_ok by lia. cbn [bind]. rewrite Z0, E. reflexivity.
Qed.
Example ex_no_rows : mat_ok (mkCSC 0 2 0 false 0%Z [0;0;0] [] ([] : list Z)) /\ cm (mkCSC 0 2 0 false 0%Z [0;0;0] [] ([] : list Z)) = 0.
Proof.
  split; [|reflexivity]. unfold mat_ok, wf_mat. splits; try (cbn; lia).
  - intros i Hi. cbn in Hi. destruct i as [|[|i]]; [cbn; lia..|lia].
Qed.
Print Assumptions C57_csc_to_csr_no_rows_refuted.

(** ** Non-vacuity *)
Definition exA : csc Z := mkCSC 3 3 4 false (-1)%Z [0;2;3;4] [0;2;1;2] [1;3;2;4]%Z.
Example exA_ok : mat_ok exA /\ cm exA = cn exA /\ 0 < cn exA /\ cst exA <> 0%Z /\ (cp exA).[cn exA] <= length (cx exA) /\
  wf_mat 3 3 [0;2;3;4] [0;2;1;2] /\ (forall c, c < 3 -> nondecreasing (col (cp exA) (ci exA) (cx exA) c)).
Proof.
  assert (W : wf_mat 3 3 [0;2;3;4] [0;2;1;2]).
  { unfold wf_mat. splits; try (cbn; lia).
    - intros i Hi. destruct i as [|[|[|i]]]; [cbn; lia..|lia].
    - intros k Hk. change (k < 4) in Hk. destruct k as [|[|[|[|k]]]]; [cbn; lia..|lia]. }
  splits; auto; try (cbn; lia).
  - unfold mat_ok. splits; auto; cbn; lia.
  - intros c Hc. destruct c as [|[|[|c]]]; [| | |lia]; vm_compute; repeat (constructor || (intros ? [] ; subst; lia) || (intros ? [<-|[]]; lia) || auto).
Qed.
Example ex_perm : is_perm 3 [2;0;1].
Proof. apply is_perm_intro; [reflexivity| |intros x Hx; repeat (destruct Hx as [<-|Hx]; [lia|]); easy]. repeat constructor; simpl; lia. Qed.
Example ex_tri : tridiag 3 1%Z 2%Z 3%Z = Ok (mkCSC 3 3 7 true (-1)%Z [0;2;5;7] [0;1;0;1;2;1;2] [2;3;1;2;3;1;2]%Z).
Proof. reflexivity. Qed.
