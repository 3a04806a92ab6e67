(** Properties of the blocked format (C78, C79). *)
From Coq Require Import ZifyBool ZifyNat.
From Verif Require Import Base Lib Lib2 Lib3 Spec SpecSuper Check M_Super L_Sparse2 L_Super L_Super2 L_Super3 P_Super P_Collect.

(** * C78 *)

Section C78.
Context {V : Type} `{DV : Dflt V}.

Lemma format_wp n Ap Ai (Ax : list V) nodes super : wf_csc n Ap Ai -> Ap.[n] <= length Ax -> sorted_cols n Ap Ai ->
  (0 < n -> Ap.[n - 1] < Ap.[n] /\ Ai.[Ap.[n] - 1] = n - 1) -> block_cuts n nodes super ->
  wp ('(nnz, p) <- calcSize n Ap Ai nodes super ;; '(mi, mx, nrows) <- createFormat n Ap Ai Ax nnz nodes super ;;
      Ok (mkBCSC nnz p mi mx nodes super nrows))
    (fun M => b_nodes M = nodes /\ b_super M = super /\ blocks_exact Ap Ai Ax nodes super (b_nnz M) (b_p M) (b_i M) (b_x M) (b_nrows M)).
Proof.
  intros W LX SC LAST C. apply wp_bind. apply calcSize_wp; auto. intros p P1 P2. apply wp_bind. apply createFormat_wp; auto.
  intros mi mx nrows L1 L2 L3 B. apply wp_ret. simpl. splits; auto. pose proof (cuts_count _ _ _ C).
  unfold blocks_exact. splits; auto; [lia|rewrite P2 by lia; reflexivity|]. intros s Hs. destruct (B s Hs) as (B1 & B2).
  exists (brows Ap Ai super s). rewrite !P2 by lia. splits; auto. rewrite boff_S, B1. auto.
Qed.

Theorem C78_format_exact : forall n Ap Ai (Ax : list V) nodes super, wf_csc n Ap Ai -> Ap.[n] <= length Ax -> sorted_cols n Ap Ai ->
  (0 < n -> Ap.[n - 1] < Ap.[n] /\ Ai.[Ap.[n] - 1] = n - 1) -> block_cuts n nodes super ->
  exists M, newBCSC n Ap Ai Ax nodes super = Ok M /\ b_nodes M = nodes /\ b_super M = firstn (nodes + 1) super /\
    blocks_exact Ap Ai Ax nodes super (b_nnz M) (b_p M) (b_i M) (b_x M) (b_nrows M).
Proof.
  intros n Ap Ai Ax nodes super W LX SC LAST C. pose proof C as (C1 & C2 & C3 & C4).
  assert (AG : forall i, i <= nodes -> (firstn (nodes + 1) super).[i] = super.[i]) by (intros i Hi; apply aget_firstn; lia).
  assert (C' : block_cuts n nodes (firstn (nodes + 1) super)).
  { unfold block_cuts. rewrite firstn_length, !AG by lia. splits; auto; [lia|]. intros s Hs. rewrite !AG by lia. auto. }
  pose proof (format_wp n Ap Ai Ax nodes _ W LX SC LAST C') as G. apply wp_ok in G. destruct G as (M & E & G1 & G2 & G3).
  exists M. unfold newBCSC. destruct (Nat.leb_spec (nodes + 1) (length super)) as [L|L]; [|lia]. split; [exact E|]. splits; auto.
  destruct G3 as (G3 & G4 & G5 & G6 & G7 & G8 & G9). unfold blocks_exact. splits; auto. intros s Hs. specialize (G9 s Hs). rewrite !AG in G9 by lia. auto.
Qed.

(** with the supernodes found by the class: the rows of a block are those of its first column *)
Theorem C78_detected_format : forall n Ap Ai (Ax : list V), wf_csc n Ap Ai -> Ap.[n] <= length Ax -> sorted_cols n Ap Ai -> diag_first n Ap Ai ->
  exists M, newBCSC_auto n Ap Ai Ax = Ok M /\ b_nodes M + 1 = length (b_super M) /\ max_runs n (S n) (same_below Ap Ai) (b_super M) /\
    blocks_exact Ap Ai Ax (b_nodes M) (b_super M) (b_nnz M) (b_p M) (b_i M) (b_x M) (b_nrows M) /\
    forall s, s < b_nodes M -> (b_nrows M).[s] = length (column Ap Ai (b_super M).[s]).
Proof.
  intros n Ap Ai Ax W LX SC D. destruct (C41_bcsc_supernodes n Ap Ai n W) as (c & Ec & R).
  replace (if n =? 0 then n else n) with n in R by (destruct (n =? 0); auto). pose proof R as (R1 & R2 & R3 & R4).
  assert (LAST : 0 < n -> Ap.[n - 1] < Ap.[n] /\ Ai.[Ap.[n] - 1] = n - 1).
  { intros Hn. destruct (D (n - 1) ltac:(lia)) as (D1 & D2 & D3). replace (S (n - 1)) with n in * by lia. split; auto.
    pose proof W as (_ & _ & _ & _ & W5). pose proof (W5 (Ap.[n] - 1) ltac:(lia)).
    destruct (Nat.eq_dec (Ap.[n] - 1) Ap.[n - 1]) as [->|]; auto.
    pose proof (SC (n - 1) Ap.[n - 1] (Ap.[n] - 1) ltac:(lia) ltac:(lia) ltac:(lia)). replace (S (n - 1)) with n in * by lia. lia. }
  assert (C : block_cuts n (length c - 1) c).
  { unfold block_cuts. splits; auto; [lia|]. intros s Hs. destruct (R4 s ltac:(lia)) as (H & _). lia. }
  pose proof (format_wp n Ap Ai Ax _ _ W LX SC LAST C) as G. apply wp_ok in G. destruct G as (M & E & G1 & G2 & G3).
  exists M. unfold newBCSC_auto. rewrite Ec. simpl bind. rewrite G1, G2. splits; auto; [lia|].
  intros s Hs. destruct G3 as (_ & _ & _ & _ & _ & _ & G9). destruct (G9 s Hs) as (rows & <- & _ & S1 & S2 & _). f_equal.
  destruct (run_bounds _ _ _ _ s R ltac:(lia)) as (B1 & B2).
  apply sorted_lt_ext; auto.
  - apply (col_of_sorted n); auto. lia.
  - intros x. rewrite S2. rewrite (column_In n) by (auto; lia). split.
    + intros (j & Hj & E'). apply (column_In n Ap Ai W j x ltac:(lia)) in E'. apply (column_In n); auto; [lia|].
      rewrite (C41_csc_dense_block n (S n) Ap Ai c s j W D R ltac:(lia) Hj). apply in_app_iff. auto.
    + intros E'. exists c.[s]. split; auto.
Qed.
End C78.
Print Assumptions C78_format_exact.
Print Assumptions C78_detected_format.

(** an unsorted column loses a value: 7 is stored in the matrix and nowhere in the blocks *)
Theorem C78_unsorted_refuted : exists n Ap Ai (Ax : list Z) nodes super M q, wf_csc n Ap Ai /\ Ap.[n] <= length Ax /\ lower_tri n Ap Ai /\
  (0 < n -> Ap.[n - 1] < Ap.[n] /\ Ai.[Ap.[n] - 1] = n - 1) /\ block_cuts n nodes super /\
  newBCSC n Ap Ai Ax nodes super = Ok M /\ q < Ap.[n] /\ ~ In Ax.[q] (b_x M).
Proof.
  exists 2, [0;2;3], [1;0;1], [5;7;9]%Z, 1, [0;2], (mkBCSC 4 [0;4;0] [0;1;0;1] [0;5;0;9]%Z 1 [0;2] [2]), 1. splits.
  - apply wf_cscb_ok. vm_compute. reflexivity.
  - vm_compute. repeat constructor.
  - apply lower_trib_ok. vm_compute. reflexivity.
  - intros _. split; [vm_compute; repeat constructor|reflexivity].
  - unfold block_cuts. simpl. splits; auto. intros s Hs. replace s with 0 by lia. vm_compute. repeat constructor.
  - vm_compute. reflexivity.
  - vm_compute. repeat constructor.
  - simpl. intuition discriminate.
Qed.
Print Assumptions C78_unsorted_refuted.

(** without the last diagonal entry the comparison reads behind the index array *)
Theorem C78_missing_diagonal_out_of_bounds : exists n Ap Ai (Ax : list Z) nodes super, wf_csc n Ap Ai /\ Ap.[n] = length Ai /\ Ap.[n] = length Ax /\
  lower_tri n Ap Ai /\ sorted_cols n Ap Ai /\ block_cuts n nodes super /\ newBCSC n Ap Ai Ax nodes super = Err OOB.
Proof.
  exists 2, [0;2;2], [0;1], [5;7]%Z, 1, [0;2]. splits; auto.
  - apply wf_cscb_ok. vm_compute. reflexivity.
  - apply lower_trib_ok. vm_compute. reflexivity.
  - apply sorted_colsb_ok. vm_compute. reflexivity.
  - unfold block_cuts. simpl. splits; auto. intros s Hs. replace s with 0 by lia. vm_compute. repeat constructor.
Qed.
Print Assumptions C78_missing_diagonal_out_of_bounds.

(** two blocks; the first holds rows 0, 1, 2 and has two padding cells *)
Example C78_case : let Ap := [0;2;4;6;7] in let Ai := [0;2;1;2;2;3;3] in
  wf_csc 4 Ap Ai /\ sorted_cols 4 Ap Ai /\ Ap.[3] < Ap.[4] /\ Ai.[Ap.[4] - 1] = 3 /\ block_cuts 4 2 [0;2;4] /\ diag_first 4 Ap Ai /\
  newBCSC 4 Ap Ai [1;2;3;4;5;6;7]%Z 2 [0;2;4] = Ok (mkBCSC 10 [0;6;10;0;0] [0;1;2;0;1;2;2;3;2;3] [1;0;2;0;3;4;5;6;0;7]%Z 2 [0;2;4] [3;2]).
Proof.
  cbv zeta. splits; auto.
  - apply wf_cscb_ok. vm_compute. reflexivity.
  - apply sorted_colsb_ok. vm_compute. reflexivity.
  - unfold block_cuts. splits; auto. intros [|[|s]] Hs; [vm_compute; repeat constructor|vm_compute; repeat constructor|lia].
  - apply diag_firstb_ok. vm_compute. reflexivity.
Qed.

(** * C79 *)

Lemma block_rows_oo {V} nodes (M : bcsc V) sup i : oob_or (block_rows nodes M sup i (repeat false nodes)) (fun r => fst r = repeat false nodes).
Proof.
  unfold block_rows. oo1. oo1. intros _. oo1.
  apply (oo_for (fun _ (st : list bool * list nat) => let '(b, t) := st in length b = nodes /\ (forall r, In r t -> r < nodes) /\ forall r, r < nodes -> b.[r] = true -> In r t)); [lia| | |].
  - rewrite repeat_length. splits; auto; [intros r []|]. intros r Hr. rewrite aget_repeat by auto. discriminate.
  - intros r (b & t) Hr (H1 & H2 & H3). oo1. oo1. intros _. oo1. oo1. intros _. oo1. oo1. intros _. oo1. oo1. intros Lx.
    destruct b.[_] eqn:Eb; [oo1; auto|]. oo1. oo1. intros _. destruct (Nat.ltb_spec (length t) nodes) as [L|L]; [oo1|reflexivity].
    rewrite upd_length. splits; auto.
    + intros x Hx. apply in_app_iff in Hx. destruct Hx as [Hx|[<-|[]]]; auto. lia.
    + intros x Hx. rewrite aget_upd by lia. rewrite in_app_iff. simpl. destruct (Nat.eqb_spec x sup.[(b_i M).[(b_p M).[i] + r]]) as [->|]; auto.
  - intros (b & t) (H1 & H2 & H3). oo1. apply oo_wp. apply (clear_rows_wp nodes); auto. apply wp_ret. reflexivity.
Qed.

Theorem C79_compressed_out_of_bounds : forall V n (M : bcsc V), 0 < b_nodes M -> compressed_BCSC_to_CSC n M = Err OOB.
Proof.
  intros V n M Hn. assert (G : oob_or (compressed_BCSC_to_CSC n M) (fun _ => False)).
  2:{ destruct (compressed_BCSC_to_CSC n M); simpl in G; [contradiction|congruence]. }
  unfold compressed_BCSC_to_CSC. set (nodes := b_nodes M) in *. oo1.
  apply oo_mono with (fun _ => True).
  { unfold supers_of. oo1. apply (oo_for (fun _ (st : list nat * nat) => length (fst st) = n /\ snd st <= n)); [lia| | |].
    - simpl. rewrite repeat_length. split; auto. lia.
    - intros i (sup & c) _ (H1 & H2). simpl in H1, H2.
      apply (oo_while (fun st : list nat * nat => length (fst st) = n /\ snd st <= n) (fun st => n - snd st)); [simpl; auto|simpl; lia|].
      clear. intros (sup & c) (H1 & H2). simpl in H1, H2. oo1. oo1. intros _. oo1. oo1. intros _. oo1. destruct (_ && _); [|auto].
      oo1. oo1. intros L. oo1. simpl. rewrite upd_length. splits; auto; lia.
    - intros (sup & c) _. oo1. exact I. }
  intros sup _. oo1.
  apply (oo_for (fun i (st : nat * list bool) => let '(nnz, b) := st in b = repeat false nodes /\ exists tf,
     nnz = sum_r 0 i (fun k => length (tf k)) /\ forall k, k < i -> block_rows nodes M sup k (repeat false nodes) = Ok (repeat false nodes, tf k))); [lia| | |].
  - split; auto. exists (fun _ => []). split; auto. intros; lia.
  - intros i (nnz & b) Hi (-> & tf & T1 & T2). oo1. pose proof (block_rows_oo nodes M sup i) as B.
    destruct (block_rows nodes M sup i (repeat false nodes)) as [(b' & t)|e] eqn:Eb; [|exact B]. simpl in B. subst b'. oo1. oo1. split; auto.
    exists (fun k => if k =? i then t else tf k). split.
    + rewrite sum_r_S by lia. rewrite Nat.eqb_refl, T1. f_equal. apply sum_r_ext. intros k Hk. destruct (Nat.eqb_spec k i); [lia|auto].
    + intros k Hk. destruct (Nat.eqb_spec k i) as [->|]; auto. apply T2. lia.
  - intros (nnz & b) (-> & tf & T1 & T2). oo1. oo1. intros _. oo1.
    apply (oo_for (fun j (st : list nat * list nat * nat * list bool) => let '(Ap, Ai, e, b) := st in b = repeat false nodes /\ length Ai = nnz /\
      e = sum_r 0 j (fun k => length (tf k)) + j /\ (j = nodes -> False))); [lia| | |].
    + rewrite repeat_length. splits; auto. lia.
    + intros j (((Ap & Ai) & e) & b) Hj (-> & A1 & A2 & _). oo1. oo1. intros _. oo1. rewrite T2 by lia. oo1. oo1.
      assert (F : forall (l : list nat) (s : list nat * nat), length (fst s) = nnz -> oob_or (foreach l (fun row '(Ai, e) => Ai <- wr Ai e row ;; Ok (Ai, S e)) s)
        (fun s' => length (fst s') = nnz /\ snd s' = snd s + length l)).
      { clear. induction l as [|x l IH]; intros (Ai & e) H; simpl in *; [split; auto; lia|]. oo1. oo1. oo1. intros _. oo1.
        eapply oo_mono; [apply IH; simpl; now rewrite upd_length|]. intros s' (H1 & H2). simpl in H2. split; auto. lia. }
      eapply oo_mono; [apply F; auto|]. intros (Ai' & e') (B1 & B2). simpl in B1, B2. oo1. oo1. intros L. oo1. oo1. intros _. oo1.
      rewrite upd_length. splits; auto.
      * rewrite sum_r_S by lia. lia.
      * intros E. rewrite T1 in B1. rewrite <- E, sum_r_S in B1 by lia. lia.
    + intros (((Ap & Ai) & e) & b) (_ & _ & _ & F). now apply F.
Qed.
Print Assumptions C79_compressed_out_of_bounds.

(** the blocked matrix of [C78_case] *)
Example C79_case : 0 < b_nodes (mkBCSC 10 [0;6;10;0;0] [0;1;2;0;1;2;2;3;2;3] [1;0;2;0;3;4;5;6;0;7]%Z 2 [0;2;4] [3;2]).
Proof. simpl. lia. Qed.
