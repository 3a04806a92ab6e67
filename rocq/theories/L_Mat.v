(** Proofs about the matrix conversions. *)
From Coq Require Import ZifyBool ZifyNat.
From Verif Require Import Base Lib Lib2 Lib3 Spec SpecMat M_Mat.

Lemma wf_mat_csc n Ap Ai : wf_mat n n Ap Ai <-> wf_csc n Ap Ai.
Proof. reflexivity. Qed.

Lemma wf_mat_le m n Ap Ai i : wf_mat m n Ap Ai -> i <= n -> Ap.[i] <= Ap.[n].
Proof. intros (W1 & W2 & W3 & W4 & W5) Hi. apply (mono_le (aget Ap) n); auto. Qed.

(** ** Buckets *)

Lemma cnt_le_N N (f : nat -> nat) k : cnt 0 N (fun j => f j =? k) <= N.
Proof. pose proof (cnt_le 0 N (fun j => f j =? k)). lia. Qed.

Section Place.
Context {V : Type} {DV : Dflt V}.
Variables (N K : nat) (f gi : nat -> nat) (gx : nat -> V) (pat : bool).
Hypothesis HF : forall j, j < N -> f j < K.

(** items [0..e) are in place *)
Definition place_inv (lb : nat) (e : nat) (st : list nat * list nat * list V) : Prop :=
  let '(cn, bi, bx) := st in
  length cn = K /\ length bi = lb /\ (pat = false -> length bx = lb) /\ N <= lb /\
  (forall k, k < K -> cn.[k] = cnt 0 e (fun j => f j =? k)) /\
  (forall j, j < e -> bi.[cpos N f j] = gi j) /\
  (pat = false -> forall j, j < e -> bx.[cpos N f j] = gx j) /\ (pat = true -> bx = []).

Lemma place_start lb (bi : list nat) (bx : list V) : length bi = lb -> (pat = false -> length bx = lb) -> N <= lb ->
  (pat = true -> bx = []) -> place_inv lb 0 (repeat 0 K, bi, bx).
Proof.
  intros H1 H2 H3 H4. unfold place_inv. rewrite repeat_length. splits; auto; try lia.
  intros k Hk. rewrite aget_repeat by auto. reflexivity.
Qed.

(** the next item's slot *)
Lemma place_slot lb e cn bi bx ptr : place_inv lb e (cn, bi, bx) -> e < N ->
  (forall k, k <= K -> ptr.[k] = cbase N f k) ->
  ptr.[f e] + cn.[f e] = cpos N f e /\ cpos N f e < lb /\ f e < K.
Proof.
  intros (I1 & I2 & I3 & I4 & I5 & I6 & I7 & I8) He HP. specialize (HF e He).
  rewrite HP, I5 by lia. splits; auto. pose proof (cpos_lt N f e He). lia.
Qed.

Lemma place_step lb e cn bi bx : place_inv lb e (cn, bi, bx) -> e < N ->
  place_inv lb (S e) (upd cn (f e) (cn.[f e] + 1), upd bi (cpos N f e) (gi e),
                      if pat then bx else upd bx (cpos N f e) (gx e)).
Proof.
  intros (I1 & I2 & I3 & I4 & I5 & I6 & I7 & I8) He. pose proof (HF e He) as Hf.
  pose proof (cpos_lt N f e He) as Hc. unfold place_inv. rewrite !upd_length. splits; auto.
  - intros Hp. rewrite Hp, upd_length. auto.
  - intros k Hk. rewrite cnt_S by lia. destruct (Nat.eq_dec (f e) k) as [<-|Hn].
    + rewrite aget_upd_eq by lia. rewrite I5 by lia. rewrite Nat.eqb_refl. reflexivity.
    + rewrite aget_upd_ne by auto. rewrite I5 by lia. replace (f e =? k) with false by lia. simpl. lia.
  - intros j Hj. destruct (Nat.eq_dec j e) as [->|Hn].
    + now rewrite aget_upd_eq by lia.
    + rewrite aget_upd_ne; [apply I6; lia|]. intros E. apply cpos_inj in E; lia.
  - intros Hp j Hj. rewrite Hp. destruct (Nat.eq_dec j e) as [->|Hn].
    + rewrite aget_upd_eq; auto. rewrite I3; auto. lia.
    + rewrite aget_upd_ne; [apply I7; auto; lia|]. intros E. apply cpos_inj in E; lia.
  - intros Hp. rewrite Hp. auto.
Qed.

Lemma place_done lb cn bi bx k : place_inv lb N (cn, bi, bx) ->
  map (fun p => bi.[p]) (seq (cbase N f k) (cbase N f (S k) - cbase N f k)) =
    map gi (filter (fun j => f j =? k) (seq 0 N)) /\
  (pat = false -> map (fun p => (bi.[p], bx.[p])) (seq (cbase N f k) (cbase N f (S k) - cbase N f k)) =
    map (fun j => (gi j, gx j)) (filter (fun j => f j =? k) (seq 0 N))).
Proof.
  intros (I1 & I2 & I3 & I4 & I5 & I6 & I7 & I8). split.
  - apply (bucket_slice N f (fun p => bi.[p]) gi k). auto.
  - intros Hp. apply (bucket_slice N f (fun p => (bi.[p], bx.[p])) (fun j => (gi j, gx j)) k).
    intros j Hj. now rewrite I6, I7 by auto.
Qed.

End Place.

(** ** Counting and running sums *)

Lemma count_rows_wp nnz Ai K (Q : list nat -> Prop) :
  nnz <= length Ai -> (forall j, j < nnz -> Ai.[j] < K) ->
  (forall c, length c = K -> (forall k, k < K -> c.[k] = cnt 0 nnz (fun j => Ai.[j] =? k)) -> Q c) ->
  wp (count_rows nnz Ai (repeat 0 K)) Q.
Proof.
  intros HA HB HQ. unfold count_rows.
  apply wp_for with (I := fun i c => length c = K /\ forall k, k < K -> c.[k] = cnt 0 i (fun j => Ai.[j] =? k)).
  - lia.
  - rewrite repeat_length. split; auto. intros k Hk. now rewrite aget_repeat.
  - intros i c Hi [I1 I2]. specialize (HB i ltac:(lia)).
    wp1. apply wp_rd; [lia|]. wp1. apply wp_rd; [lia|]. apply wp_wr; [lia|].
    rewrite upd_length. split; auto. intros k Hk. rewrite cnt_S by lia.
    destruct (Nat.eq_dec Ai.[i] k) as [<-|Hn].
    + rewrite aget_upd_eq by lia. rewrite I2 by lia. rewrite Nat.eqb_refl. reflexivity.
    + rewrite aget_upd_ne by auto. rewrite I2 by lia. replace (Ai.[i] =? k) with false by lia. simpl. lia.
  - intros c [I1 I2]. auto.
Qed.

Lemma scan_rows_wp nrow N (f : nat -> nat) rowCnt rowptr (Q : list nat -> Prop) :
  (forall j, j < N -> f j < nrow) ->
  length rowCnt = nrow -> nrow < length rowptr ->
  (forall k, k < nrow -> rowCnt.[k] = cnt 0 N (fun j => f j =? k)) ->
  (forall p, length p = length rowptr -> (forall k, k <= nrow -> p.[k] = cbase N f k) -> Q p) ->
  wp (scan_rows nrow N rowCnt rowptr) Q.
Proof.
  intros HF H1 H2 HC HQ. unfold scan_rows. apply wp_bind.
  apply wp_for with (I := fun i '(p, c) => length p = length rowptr /\ c = cbase N f i /\
    forall k, k < i -> p.[k] = cbase N f k).
  - lia.
  - splits; auto; try lia. now rewrite cbase_0.
  - intros i [p c] Hi (I1 & I2 & I3). wp1. apply wp_wr; [lia|]. wp1. apply wp_rd; [lia|]. cbn [wp].
    rewrite upd_length. splits; auto.
    + rewrite I2, cbase_S, HC by lia. reflexivity.
    + intros k Hk. destruct (Nat.eq_dec k i) as [->|Hn].
      * now rewrite aget_upd_eq by lia.
      * rewrite aget_upd_ne by auto. apply I3. lia.
  - intros [p c] (I1 & I2 & I3). apply wp_wr; [lia|]. apply HQ; [now rewrite upd_length|].
    intros k Hk. destruct (Nat.eq_dec k nrow) as [->|Hn].
    + rewrite aget_upd_eq by lia. symmetry. now apply cbase_all.
    + rewrite aget_upd_ne by auto. apply I3. lia.
Qed.

Section Conv.
Context {V : Type} {DV : Dflt V}.

(** ** Placement *)
Lemma place_rows_wp pat m n Ap Ai (Ax : list V) ptr bi bx (Q : list nat * list V -> Prop) :
  wf_mat m n Ap Ai -> (pat = false -> Ap.[n] <= length Ax) ->
  Ap.[n] <= length bi -> (pat = false -> length bx = length bi) -> (pat = true -> bx = []) ->
  m < length ptr -> (forall k, k <= m -> ptr.[k] = cbase Ap.[n] (aget Ai) k) ->
  (forall cn bi' bx', place_inv Ap.[n] m (aget Ai) (col_of n Ap) (aget Ax) pat (length bi) Ap.[n] (cn, bi', bx') -> Q (bi', bx')) ->
  wp (place_rows pat n Ap Ai Ax ptr (repeat 0 m) bi bx) Q.
Proof.
  intros (W1 & W2 & W3 & W4 & W5) HX Hb Hbx Hpt Hp HP HQ. unfold place_rows. apply wp_bind.
  apply (wp_cols (place_inv Ap.[n] m (aget Ai) (col_of n Ap) (aget Ax) pat (length bi))); auto.
  - apply place_start; auto.
  - intros i j [[c b] x] Hi Hj HI.
    assert (Hjn : j < Ap.[n]). { assert (Ap.[S i] <= Ap.[n]) by (apply (mono_le (aget Ap) n); auto; lia). lia. }
    assert (Hcol : col_of n Ap j = i) by (apply in_col_col_of; auto; split; auto).
    destruct (place_slot Ap.[n] m (aget Ai) _ _ pat W5 (length bi) j c b x ptr HI Hjn HP) as (E1 & E2 & E3).
    pose proof HI as (I1 & I2 & I3 & I4 & _). unfold place_entry.
    wp1. apply wp_rd; [lia|]. wp1. apply wp_rd; [lia|]. wp1. apply wp_rd; [lia|]. rewrite E1.
    wp1. apply wp_wr; [lia|]. apply wp_bind.
    assert (G := place_step Ap.[n] m (aget Ai) (col_of n Ap) (aget Ax) pat W5 (length bi) j c b x HI Hjn). rewrite Hcol in G.
    destruct pat.
    + cbn [wp]. wp1. apply wp_wr; [lia|]. cbn [wp]. exact G.
    + wp1. apply wp_rd; [specialize (HX eq_refl); lia|]. apply wp_wr; [rewrite I3; auto|].
      wp1. apply wp_wr; [lia|]. cbn [wp]. exact G.
  - intros [[c b] x] HI. cbn [wp]. eapply HQ; eauto.
Qed.

(** ** The rows as lists *)

Lemma filter_cols n Ap Ai (Ax : list V) k : Ap.[0] = 0 -> (forall i, i < n -> Ap.[i] <= Ap.[S i]) ->
  map (fun j => (col_of n Ap j, Ax.[j])) (filter (fun j => Ai.[j] =? k) (seq 0 Ap.[n])) = row_of n (col Ap Ai Ax) k.
Proof.
  intros H0 HM. rewrite (seq_cols Ap n H0 HM), filter_flat_map, map_flat_map. unfold row_of.
  apply flat_map_ext_in. intros c Hc. apply in_seq in Hc. unfold col. rewrite filter_map_comm, map_map.
  apply map_ext_in. intros j Hj. apply filter_In in Hj. destruct Hj as [Hj _]. apply in_seq in Hj. cbn [snd].
  f_equal. apply in_col_col_of; auto. split; lia.
Qed.

Lemma row_of_fst n Ap Ai (Ax : list V) k : Ap.[0] = 0 -> (forall i, i < n -> Ap.[i] <= Ap.[S i]) ->
  map (col_of n Ap) (filter (fun j => Ai.[j] =? k) (seq 0 Ap.[n])) = map fst (row_of n (col Ap Ai Ax) k).
Proof. intros H0 HM. rewrite <- filter_cols by auto. rewrite map_map. reflexivity. Qed.

Lemma rows_exact_of_inv pat m n Ap Ai (Ax : list V) ptr cn bi bx lb : wf_mat m n Ap Ai -> m < length ptr ->
  (forall k, k <= m -> ptr.[k] = cbase Ap.[n] (aget Ai) k) ->
  place_inv Ap.[n] m (aget Ai) (col_of n Ap) (aget Ax) pat lb Ap.[n] (cn, bi, bx) ->
  rows_exact pat m n Ap Ai Ax ptr bi bx.
Proof.
  intros (W1 & W2 & W3 & W4 & W5) Hp HP HI.
  assert (E : ptr.[m] = Ap.[n]) by (rewrite HP by lia; now apply cbase_all).
  pose proof HI as (I1 & I2 & I3 & I4 & I5 & I6 & I7 & I8). unfold rows_exact. splits; auto.
  - unfold wf_mat. splits; auto.
    + rewrite HP by lia. apply cbase_0.
    + intros i Hi. rewrite !HP by lia. apply cbase_mono. lia.
    + lia.
    + intros k Hk. rewrite E in Hk. destruct (cpos_onto Ap.[n] (aget Ai) k Hk) as (j & Hj & <-).
      rewrite I6 by auto. now apply col_of_in.
  - intros Hpat. rewrite I3; auto. 
  - intros r Hr. unfold col at 1. rewrite map_map. cbn [fst]. rewrite !HP by lia.
    destruct (place_done _ _ _ _ _ _ _ _ _ _ r HI) as [G _]. rewrite G. now apply row_of_fst.
  - intros Hpat r Hr. unfold col at 1. rewrite !HP by lia.
    destruct (place_done _ _ _ _ _ _ _ _ _ _ r HI) as [_ G]. rewrite G by auto. now apply filter_cols.
Qed.

Lemma csc_to_csr_arr_wp m n Ap Ai (Ax : list V) (Q : list nat * list nat * list V -> Prop) :
  wf_mat m n Ap Ai -> Ap.[n] <= length Ax ->
  (forall Bp Bi Bx, length Bp = S m -> length Bi = Ap.[n] -> length Bx = Ap.[n] ->
     rows_exact false m n Ap Ai Ax Bp Bi Bx -> Q (Bp, Bi, Bx)) ->
  wp (csc_to_csr_arr m n Ap Ai Ax) Q.
Proof.
  intros W HX HQ. pose proof W as (W1 & W2 & W3 & W4 & W5). unfold csc_to_csr_arr.
  wp1. apply wp_rd; [auto|]. apply wp_bind. apply count_rows_wp; auto. intros c C1 C2.
  apply wp_bind. apply (scan_rows_wp m Ap.[n] (aget Ai)); auto; [rewrite repeat_length; lia|]. rewrite repeat_length. intros p P1 P2.
  apply wp_bind. apply place_rows_wp with (m := m); auto; rewrite ?repeat_length; try lia; try discriminate.
  intros cn bi bx HI. cbn [wp]. pose proof HI as (I1 & I2 & I3 & I4 & I5 & I6 & I7 & I8). apply HQ; auto; try lia.
  eapply rows_exact_of_inv; eauto. lia.
Qed.

(** a matrix object: allocated sizes at least what its fields say *)
Definition mat_ok (A : csc V) : Prop :=
  wf_mat (cm A) (cn A) (cp A) (ci A) /\ (cp A).[cn A] <= cnnz A /\ (cpat A = false -> (cp A).[cn A] <= length (cx A)).

Lemma csc_to_csr_wp A (Q : csc V -> Prop) : mat_ok A -> 0 < cm A ->
  (forall B, cm B = cm A -> cn B = cn A -> cnnz B = cnnz A -> cpat B = cpat A -> length (ci B) = cnnz A ->
     length (cp B) = S (cm A) ->
     rows_exact (cpat A) (cm A) (cn A) (cp A) (ci A) (cx A) (cp B) (ci B) (cx B) -> Q B) ->
  wp (csc_to_csr A) Q.
Proof.
  intros (W & HN & HX) Hm HQ. pose proof W as (W1 & W2 & W3 & W4 & W5). unfold csc_to_csr.
  wp1. apply wp_rd; [auto|]. apply wp_bind. apply count_rows_wp; auto. intros c C1 C2.
  unfold new_csr. cbn [cm cn cnnz cpat cst cp ci cx]. replace (0 <? cm A) with true by lia.
  apply wp_bind. apply (scan_rows_wp (cm A) (cp A).[cn A] (aget (ci A))); auto; [rewrite repeat_length; lia|].
  rewrite repeat_length. intros p P1 P2.
  apply wp_bind. apply place_rows_wp with (m := cm A); auto; rewrite ?repeat_length; try lia.
  - intros Hp. rewrite Hp, repeat_length. auto.
  - intros Hp. now rewrite Hp.
  - intros cn bi bx HI. cbn [wp]. pose proof HI as (I1 & I2 & I3 & I4 & I5 & I6 & I7 & I8). apply HQ; auto; cbn; try lia.
    eapply rows_exact_of_inv; eauto. lia.
Qed.

Lemma transpose_general_wp A (Q : option (csc V) -> Prop) : mat_ok A ->
  (cm A = 0 -> Q None) ->
  (0 < cm A -> forall B, cm B = cn A -> cn B = cm A -> cnnz B = cnnz A -> cpat B = cpat A -> length (ci B) = cnnz A ->
     rows_exact (cpat A) (cm A) (cn A) (cp A) (ci A) (cx A) (cp B) (ci B) (cx B) -> Q (Some B)) ->
  wp (transpose_general A) Q.
Proof.
  intros (W & HN & HX) H0 HQ. pose proof W as (W1 & W2 & W3 & W4 & W5). unfold transpose_general.
  destruct (Nat.eqb_spec (cm A) 0) as [E|E]; [cbn [wp]; auto|]. cbv zeta.
  wp1. apply wp_rd; [auto|]. apply wp_bind. apply count_rows_wp; auto. intros c C1 C2.
  unfold new_csc. cbn [cm cn cnnz cpat cst cp ci cx]. replace (0 <? cm A) with true by lia.
  wp1. apply wp_wr; [rewrite repeat_length; lia|]. apply wp_bind.
  apply wp_for with (I := fun j p => length p = S (cm A) /\ forall k, k < j -> p.[k] = cbase (cp A).[cn A] (aget (ci A)) k).
  - lia.
  - rewrite upd_length, repeat_length. split; [lia|]. intros k Hk. replace k with 0 by lia.
    rewrite aget_upd_eq by (rewrite repeat_length; lia). now rewrite cbase_0.
  - intros j p Hj [I1 I2]. wp1. apply wp_rd; [lia|]. wp1. apply wp_rd; [lia|]. apply wp_wr; [lia|].
    rewrite upd_length. split; auto. intros k Hk. destruct (Nat.eq_dec k j) as [->|Hn].
    + rewrite aget_upd_eq by lia. rewrite I2, C2 by lia. replace (cbase _ _ j) with (cbase (cp A).[cn A] (aget (ci A)) (S (j - 1))).
      * now rewrite cbase_S.
      * f_equal. lia.
    + rewrite aget_upd_ne by auto. apply I2. lia.
  - intros p [P1 P2].
    apply wp_bind. apply place_rows_wp with (m := cm A); auto; rewrite ?repeat_length; try lia.
    + intros Hp. rewrite Hp, repeat_length. auto.
    + intros Hp. now rewrite Hp.
    + intros k Hk. apply P2. lia.
    + intros cn bi bx HI. cbn [wp]. pose proof HI as (I1 & I2 & I3 & I4 & I5 & I6 & I7 & I8). apply HQ; auto; cbn; try lia.
      eapply rows_exact_of_inv; eauto; [lia|]. intros k Hk. apply P2. lia.
Qed.

End Conv.
