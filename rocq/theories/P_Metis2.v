(** C152, C153: copy_sparse and metis_partitioning. *)
From Coq Require Import ZifyBool ZifyNat.
From Verif Require Import Base Lib Lib2 Lib3 Spec Check SpecMat M_Mat M_Sym L_Mat M_Metis P_Metis P_Sym M_Metis2.

(** ** C152: copy_sparse *)
Section Copy.
Context {V : Type} {DV : Dflt V}.

Theorem C152_copy_sparse : forall A : csc V, 0 < cn A -> cn A < length (cp A) -> cnnz A <= length (ci A) -> cnnz A <= length (cx A) ->
  exists C, copy_sparse A = Ok C /\ cm C = cm A /\ cn C = cn A /\ cnnz C = cnnz A /\ cst C = cst A /\ cpat C = false /\
    cp C = firstn (cn A + 1) (cp A) /\ ci C = firstn (cnnz A) (ci A) /\ cx C = firstn (cnnz A) (cx A).
Proof.
  intros A Hn Lp Li Lx.
  assert (G : wp (copy_sparse A) (fun C => cm C = cm A /\ cn C = cn A /\ cnnz C = cnnz A /\ cst C = cst A /\ cpat C = false /\
    cp C = firstn (cn A + 1) (cp A) /\ ci C = firstn (cnnz A) (ci A) /\ cx C = firstn (cnnz A) (cx A))).
  { unfold copy_sparse, new_csc. cbn [cm cn cnnz cp ci cx cst]. replace (0 <? cn A) with true by lia. cbv zeta. apply wp_bind.
    apply (wp_for (fun k p => length p = cn A + 1 /\ forall q, q < k -> p.[q] = (cp A).[q])); [lia|rewrite repeat_length; split; auto; intros; lia| |].
    - intros k p [_ Hk] (L & H). wp1. wp1; [lia|]. wp1; [lia|]. rewrite upd_length. split; auto. intros q Hq.
      destruct (Nat.eq_dec q k) as [->|]; [now rewrite aget_upd_eq by lia|]. rewrite aget_upd_ne by lia. apply H. lia.
    - intros p (L & H). apply wp_bind.
      apply (wp_for (fun k '(i, x) => length i = cnnz A /\ length x = cnnz A /\ (forall q, q < k -> i.[q] = (ci A).[q]) /\ (forall q, q < k -> x.[q] = (cx A).[q]))); [lia| | |].
      + rewrite !repeat_length. splits; auto; intros; lia.
      + intros k [i x] [_ Hk] (L1 & L2 & H1 & H2). wp1. wp1; [lia|]. wp1. wp1; [lia|]. wp1. wp1; [lia|]. wp1. wp1; [lia|]. cbn [wp]. rewrite !upd_length. splits; auto.
        * intros q Hq. destruct (Nat.eq_dec q k) as [->|]; [now rewrite aget_upd_eq by lia|]. rewrite aget_upd_ne by lia. apply H1. lia.
        * intros q Hq. destruct (Nat.eq_dec q k) as [->|]; [now rewrite aget_upd_eq by lia|]. rewrite aget_upd_ne by lia. apply H2. lia.
      + intros [i x] (L1 & L2 & H1 & H2). cbn [wp cm cn cnnz cp ci cx cst cpat]. splits; auto.
        * apply list_ext; [rewrite firstn_length; lia|]. intros q Hq. rewrite aget_firstn by lia. apply H. lia.
        * apply list_ext; [rewrite firstn_length; lia|]. intros q Hq. rewrite aget_firstn by lia. apply H1. lia.
        * apply list_ext; [rewrite firstn_length; lia|]. intros q Hq. rewrite aget_firstn by lia. apply H2. lia. }
  apply wp_ok in G. exact G.
Qed.

(** a pattern has no values: its values are read nevertheless *)
Theorem C152_pattern_out_of_bounds : forall A : csc V, 0 < cn A -> cn A < length (cp A) -> 0 < cnnz A <= length (ci A) -> cx A = [] -> copy_sparse A = Err OOB.
Proof.
  intros A Hn Lp Li Lx. unfold copy_sparse, new_csc. cbn [cm cn cnnz cp ci cx cst]. replace (0 <? cn A) with true by lia. cbv zeta.
  assert (G : wp (for_ 0 (cn A + 1) (fun i p => v <- rd (cp A) i ;; wr p i v) (repeat 0 (cn A + 1))) (fun _ => True)).
  { apply (wp_for (fun k p => length p = cn A + 1)); [lia|now rewrite repeat_length| |auto]. intros k p [_ Hk] L. wp1. wp1; [lia|]. wp1; [lia|]. now rewrite upd_length. }
  apply wp_ok in G. destruct G as (p & -> & _). cbn [bind]. destruct (cnnz A) as [|z]; [lia|].
  rewrite Lx. unfold for_. cbn [Nat.sub for_n]. rewrite rd_ok by lia. cbn [bind repeat wr]. reflexivity.
Qed.

(** a matrix without columns: the pointer array is null and written *)
Theorem C152_empty_out_of_bounds : forall A : csc V, cn A = 0 -> copy_sparse A = Err OOB.
Proof. intros A Hn. unfold copy_sparse, new_csc. cbn [cp]. rewrite Hn. cbn. destruct (cp A); reflexivity. Qed.
End Copy.
Print Assumptions C152_copy_sparse.
Print Assumptions C152_pattern_out_of_bounds.
Print Assumptions C152_empty_out_of_bounds.

Example C152_case : copy_sparse (mkCSC 2 2 3 false (-1)%Z [0;2;3] [0;1;1;9] [4;5;6;7]%Z) = Ok (mkCSC 2 2 3 false (-1)%Z [0;2;3] [0;1;1] [4;5;6]%Z).
Proof. reflexivity. Qed.

(** ** C153: metis_partitioning *)

(** A full matrix with values and a symmetric pattern: a copy of it and a part below [k] for each of its rows, part 0 not empty *)
Theorem C153_values : forall (V : Type) (DV : Dflt V) node_nd kway (A : csc V) k,
  (forall n p i, metis_graph n p i -> is_perm n (node_nd n p i)) ->
  (forall n p i w k, metis_graph n p i -> length (kway n p i w k) = n /\ forall v, In v (kway n p i w k) -> (0 <= v < Z.of_nat k)%Z) ->
  mat_ok A -> cpat A = false -> cnnz A <= length (ci A) -> cnnz A <= length (cx A) -> cm A = cn A -> 0 < cn A -> k <= cn A + 1 ->
  (forall u v, u < cn A -> v < cn A -> entry (cp A) (ci A) u v -> entry (cp A) (ci A) v u) ->
  exists C part, metis_partitioning node_nd kway A k = Ok (C, part) /\ cm C = cm A /\ cn C = cn A /\
    (forall c, c < cn A -> col (cp C) (ci C) (cx C) c = col (cp A) (ci A) (cx A) c) /\
    length part = cn A /\ (forall v, In v part -> (0 <= v < Z.of_nat k)%Z) /\ In 0%Z part.
Proof.
  intros V DV nd kway A k HN HK MO HP LI LX SQ Hn Hk HS.
  destruct (C100_perm_general V DV nd A HN MO SQ Hn HS) as (perm & EP & _).
  pose proof MO as ((W1 & W2 & W3 & W4 & W5) & M2 & M3).
  destruct (C152_copy_sparse A Hn W1 LI LX) as (C & EC & C1 & C2 & C3 & C4 & C5 & C6 & C7 & C8).
  assert (AP : forall i, i <= cn A -> (cp C).[i] = (cp A).[i]) by (intros i Hi; rewrite C6; apply aget_firstn; lia).
  assert (AI : forall q, q < cnnz A -> (ci C).[q] = (ci A).[q]) by (intros q Hq; rewrite C7; apply aget_firstn; lia).
  assert (AX : forall q, q < cnnz A -> (cx C).[q] = (cx A).[q]) by (intros q Hq; rewrite C8; apply aget_firstn; lia).
  assert (MM : forall c, c < cn A -> (cp A).[S c] <= (cp A).[cn A]) by (intros c Hc; apply (mono_le (aget (cp A)) (cn A)); auto; lia).
  assert (MC : mat_ok C).
  { unfold mat_ok, wf_mat. rewrite C1, C2, C3, !AP by lia. splits; auto.
    - rewrite C6, firstn_length. lia.
    - intros i Hi. rewrite !AP by lia. auto.
    - rewrite C7, firstn_length. lia.
    - intros q Hq. rewrite AI by lia. auto.
    - intros _. rewrite C8, firstn_length. lia. }
  assert (EN : forall u v, u < cn A -> entry (cp C) (ci C) u v <-> entry (cp A) (ci A) u v).
  { intros u v Hu. pose proof (MM u Hu). unfold entry. split; intros (q & Q1 & Q2); exists q.
    - rewrite !AP in Q1 by lia. rewrite AI in Q2 by lia. auto.
    - rewrite !AP by lia. rewrite AI by lia. auto. }
  destruct (C100_partition_general V DV kway C k HK MC) as (p & i & part & _ & EG & L1 & L2 & L3 & _); try (rewrite ?C1, ?C2; auto; lia).
  { rewrite C2. intros u v Hu Hv He. apply EN; auto. apply EN in He; auto. }
  exists C, part. unfold metis_partitioning. rewrite HP, EP. cbn [bind]. rewrite EC. cbn [bind]. rewrite EG. cbn [bind]. rewrite C2 in L1. splits; auto.
  intros c Hc. pose proof (MM c Hc). unfold col. rewrite !AP by lia. apply map_ext_in. intros q Hq. apply in_seq in Hq. rewrite AI, AX by lia. reflexivity.
Qed.
Print Assumptions C153_values.

(** A pattern that is not marked symmetric: a null matrix is dereferenced *)
Theorem C153_general_pattern : forall (V : Type) (DV : Dflt V) node_nd kway (A : csc V) k, cpat A = true -> cst A = 0%Z ->
  metis_partitioning node_nd kway A k = Err OOB.
Proof.
  intros V DV nd kway A k HP HS. unfold metis_partitioning, metis_perm_symmetric. rewrite HP, HS. cbn [Z.eqb bind]. rewrite C83_refused by auto. reflexivity.
Qed.
Print Assumptions C153_general_pattern.

(** A pattern marked symmetric: the matrix that comes back is in the order of METIS, which is deleted; its rows are not those of [A].
    METIS is given a graph it does not accept (C101): every neighbour is listed twice, and node 0 is a neighbour of every node *)
Theorem C153_pattern_refuted : exists node_nd kway (A : csc Z) C part,
  (forall n p i, is_perm n (node_nd n p i)) /\ (forall n p i w k, length (kway n p i w k) = n) /\
  mat_ok A /\ cpat A = true /\ cm A = cn A /\ lower_tri (cn A) (cp A) (ci A) /\ one_diag (cn A) (cp A) (ci A) /\
  metis_partitioning node_nd kway A 2 = Ok (C, part) /\ cn C = cn A /\
  (exists u v, u < cn A /\ v < cn A /\ entry (cp A) (ci A) u v /\ ~ entry (cp C) (ci C) u v) /\
  symmetric_graph (cn C) (cnnz C) (cp C) (ci C) = Ok ([0;3;6;11], [2;2;0;2;2;0;0;1;0;1;0]).
Proof.
  exists (fun n _ _ => if n =? 3 then [0; 2; 1] else seq 0 n), (fun n _ _ _ _ => repeat 0%Z n), (mkCSC 3 3 5 true (-1)%Z [0;2;4;5] [0;1;1;2;2] []).
  eexists. eexists. splits.
  - intros n p i. destruct (Nat.eqb_spec n 3) as [->|].
    + split; [reflexivity|]. split; [repeat constructor; cbn [In]; lia|]. intros x. cbn [In]. lia.
    + split; [apply seq_length|]. split; [apply seq_NoDup|]. intros x. rewrite in_seq. lia.
  - intros. apply repeat_length.
  - unfold mat_ok. cbn [cm cn cp ci cnnz cpat]. split; [apply wf_mat_csc, wf_cscb_ok; reflexivity|]. split; [vm_compute; lia|discriminate].
  - reflexivity.
  - reflexivity.
  - apply lower_trib_ok. reflexivity.
  - apply one_diag_of_first, diag_firstb_ok. reflexivity.
  - vm_compute. reflexivity.
  - reflexivity.
  - exists 0, 1. cbn [cn cp ci]. splits; try lia; [exists 1; vm_compute; lia|]. intros (q & Q1 & Q2). vm_compute in Q1.
    destruct q as [|[|q]]; [discriminate|vm_compute in Q2; discriminate|lia].
  - vm_compute. reflexivity.
Qed.
Print Assumptions C153_pattern_refuted.

(** the hypotheses of [C153_values] for a full matrix of three rows *)
Example C153_case : let A := mkCSC 3 3 7 false 0%Z [0;2;5;7] [0;1;0;1;2;1;2] [1;2;3;4;5;6;7]%Z in mat_ok A /\
  metis_partitioning (fun n _ _ => seq 0 n) (fun n _ _ _ _ => firstn n [1; 0; 1]%Z) A 2 = Ok (A, [1; 0; 1]%Z).
Proof.
  cbv zeta. split; [|vm_compute; reflexivity]. unfold mat_ok. cbn [cm cn cp ci cnnz cpat cx]. split; [apply wf_mat_csc, wf_cscb_ok; reflexivity|]. split; [vm_compute; lia|intros _; vm_compute; lia].
Qed.
