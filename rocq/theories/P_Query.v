(** Property C126: the small queries of utils/sparse_utilities.cpp. *)
From Coq Require Import ZifyBool ZifyNat.
From Verif Require Import Base Lib Lib2 Spec SpecMat M_Mat M_TestUtil P_Compare.

(** how many [i < n] satisfy [p] *)
Fixpoint how_many (p : nat -> bool) (n : nat) : nat := match n with 0 => 0 | S k => how_many p k + (if p k then 1 else 0) end.

Section Query.
Context {V : Type} {DV : Dflt V}.

(** C126.  The number of empty columns. *)
Theorem C126_empty_columns : forall A : csc V, cn A < length (cp A) ->
  number_empty_col A = Ok (how_many (fun c => (cp A).[S c] =? (cp A).[c]) (cn A)).
Proof.
  intros A H. unfold number_empty_col.
  assert (G : wp (for_ 0 (cn A) (fun i cnt => b <- rd (cp A) (S i) ;; a <- rd (cp A) i ;; Ok (if b =? a then S cnt else cnt)) 0)
                 (fun r => r = how_many (fun c => (cp A).[S c] =? (cp A).[c]) (cn A))).
  { apply (wp_for (fun k r => r = how_many (fun c => (cp A).[S c] =? (cp A).[c]) k)); [lia|reflexivity| |auto].
    intros k r Hk ->. apply wp_bind. apply wp_rd; [lia|]. apply wp_bind. apply wp_rd; [lia|]. apply wp_ret. cbn [how_many].
    destruct ((cp A).[S k] =? (cp A).[k]); lia. }
  apply wp_ok in G. destruct G as (r & -> & ->). reflexivity.
Qed.

(** The number of entries of every column. *)
Theorem C126_nnz_per_column : forall (A : csc V) cnt, cn A < length (cp A) -> cn A <= length cnt ->
  exists cnt', compute_nnz_per_col A cnt = Ok cnt' /\ length cnt' = length cnt /\
    (forall c, c < cn A -> cnt'.[c] = length (col (cp A) (ci A) (cx A) c)) /\ (forall c, cn A <= c -> cnt'.[c] = cnt.[c]).
Proof.
  intros A cnt H HC. unfold compute_nnz_per_col.
  apply wp_ok. apply (wp_for (fun k (r : list nat) => length r = length cnt /\
     (forall c, c < k -> r.[c] = length (col (cp A) (ci A) (cx A) c)) /\ (forall c, k <= c -> r.[c] = cnt.[c]))); [lia| | |auto].
  - splits; auto. intros; lia.
  - intros k r Hk (L & I1 & I2). apply wp_bind. apply wp_rd; [lia|]. apply wp_bind. apply wp_rd; [lia|]. apply wp_wr; [lia|].
    rewrite upd_length. splits; auto.
    + intros c Hc. destruct (Nat.eq_dec c k) as [->|].
      * rewrite aget_upd_eq by lia. unfold col. now rewrite map_length, seq_length.
      * rewrite aget_upd_ne by auto. apply I1. lia.
    + intros c Hc. rewrite aget_upd_ne by lia. apply I2. lia.
Qed.

(** If the last column is not empty, the check of the diagonal is true exactly if the first entry of every column is its
    diagonal (an empty column reads the next one's entry, and one of the two fails). *)
Theorem C126_diagonal_first : forall A : csc V, wf_csc (cn A) (cp A) (ci A) -> (cp A).[cn A - 1] < (cp A).[cn A] ->
  exists b, verify_csc_diagonal A = Ok b /\
    (b = true <-> forall c, c < cn A -> hd_error (map fst (col (cp A) (ci A) (cx A) c)) = Some c).
Proof.
  intros A (W1 & W2 & W3 & W4 & W5) NE.
  assert (MO : forall i, i < cn A -> (cp A).[i] <= (cp A).[cn A - 1]) by (intros i Hi; apply (mono_le (aget (cp A)) (cn A)); auto; lia).
  assert (E : verify_csc_diagonal A = Ok (forallb (fun i => negb (negb ((ci A).[(cp A).[i]] =? i))) (seq 0 (cn A - 0)))).
  { unfold verify_csc_diagonal. rewrite <- (forb_all (fun i => Ok (negb ((ci A).[(cp A).[i]] =? i)))); auto; [|lia].
    apply forb_ext. intros i s Hi. pose proof (MO i ltac:(lia)).
    rewrite rd_ok by lia. cbn [bind]. rewrite rd_ok by lia. cbn [bind]. destruct ((ci A).[(cp A).[i]] =? i); reflexivity. }
  eexists. split; [exact E|]. rewrite forallb_seq. clear E.
  assert (HD : forall c, c < cn A -> (cp A).[c] < (cp A).[S c] -> hd_error (map fst (col (cp A) (ci A) (cx A) c)) = Some (ci A).[(cp A).[c]]).
  { intros c Hc H. unfold col. replace ((cp A).[S c] - (cp A).[c]) with (S ((cp A).[S c] - (cp A).[c] - 1)) by lia. reflexivity. }
  split; intros G c Hc.
  - assert (G' : forall k, k < cn A -> (ci A).[(cp A).[k]] = k) by (intros k Hk; specialize (G k ltac:(lia)); lia).
    rewrite HD, G'; auto. pose proof (W3 c Hc). destruct (Nat.eq_dec (cp A).[c] (cp A).[S c]) as [E|]; [exfalso|lia].
    destruct (Nat.eq_dec (S c) (cn A)) as [El|Nl].
    + rewrite <- El in NE. replace (S c - 1) with c in NE by lia. lia.
    + pose proof (G' c Hc) as G1. pose proof (G' (S c) ltac:(lia)) as G2. rewrite E in G1. lia.
  - specialize (G c ltac:(lia)). pose proof (W3 c ltac:(lia)). destruct (Nat.eq_dec (cp A).[c] (cp A).[S c]) as [E|].
    + unfold col in G. rewrite E, Nat.sub_diag in G. discriminate.
    + rewrite HD in G by lia. injection G as G. lia.
Qed.

(** extract_diagonals stores the first position of the diagonal entry; without one the element stays uninitialised. *)
Theorem C126_diagonal_positions : forall n Ap Ai, wf_csc n Ap Ai ->
  exists ret, extract_diagonals n Ap Ai = Ok ret /\ length ret = n /\ forall c, c < n ->
    (forall k, ret.[c] = Some k -> Ap.[c] <= k < Ap.[S c] /\ Ai.[k] = c /\ forall j, Ap.[c] <= j < k -> Ai.[j] <> c) /\
    (ret.[c] = None -> forall j, Ap.[c] <= j < Ap.[S c] -> Ai.[j] <> c).
Proof.
  intros n Ap Ai (W1 & W2 & W3 & W4 & W5). unfold extract_diagonals. apply wp_ok.
  set (P := fun c (o : option nat) => (forall k, o = Some k -> Ap.[c] <= k < Ap.[S c] /\ Ai.[k] = c /\ forall j, Ap.[c] <= j < k -> Ai.[j] <> c) /\
    (o = None -> forall j, Ap.[c] <= j < Ap.[S c] -> Ai.[j] <> c)).
  apply (wp_for (fun k (r : list (option nat)) => length r = n /\ (forall c, c < k -> P c r.[c]) /\ (forall c, k <= c < n -> r.[c] = None))); [lia| | |].
  - splits; [now rewrite repeat_length|intros; lia|intros c Hc; now rewrite aget_repeat by lia].
  - intros i r Hi (L & I1 & I2). apply wp_bind. apply wp_rd; [lia|]. apply wp_bind. apply wp_rd; [lia|].
    assert (Ap.[S i] <= Ap.[n]) by (apply (mono_le (aget Ap) n); auto; lia). assert (Hi' : i < n) by lia. pose proof (W3 i Hi').
    apply (wp_forb (fun j r' => r' = r /\ forall k, Ap.[i] <= k < j -> Ai.[k] <> i)); [lia| | |].
    + split; auto. intros; lia.
    + intros j r' Hj (-> & I). apply wp_bind. apply wp_rd; [lia|]. destruct (Nat.eqb_spec Ai.[j] i) as [E|N].
      * apply wp_bind. apply wp_wr; [lia|]. apply wp_ret. cbn [fst snd]. rewrite upd_length. splits; auto.
        -- intros c Hc. destruct (Nat.eq_dec c i) as [->|].
           ++ rewrite aget_upd_eq by lia. split; [|discriminate]. intros k Ek. injection Ek as <-. splits; auto; lia.
           ++ rewrite aget_upd_ne by auto. apply I1. lia.
        -- intros c Hc. rewrite aget_upd_ne by lia. apply I2. lia.
      * apply wp_ret. cbn [fst snd]. split; auto. intros k Hk. destruct (Nat.eq_dec k j) as [->|]; auto. apply I. lia.
    + intros r' (-> & I). splits; auto.
      * intros c Hc. destruct (Nat.eq_dec c i) as [->|]; [|apply I1; lia]. rewrite I2 by lia. split; [discriminate|]. intros _. exact I.
      * intros c Hc. apply I2. lia.
  - intros r (L & I1 & I2). splits; auto.
Qed.

(** A copy of the range; nothing else changes. *)
Theorem C126_copy : forall b e (src dst : list V), e <= length src -> e <= length dst ->
  exists dst', copy_vector_dense b e src dst = Ok dst' /\ length dst' = length dst /\
    forall i, dst'.[i] = if (b <=? i) && (i <? e) then src.[i] else dst.[i].
Proof.
  intros b e src dst H1 H2. destruct (Nat.le_gt_cases b e) as [Hbe|Hbe].
  - apply wp_ok. unfold copy_vector_dense.
    apply (wp_for (fun k (r : list V) => length r = length dst /\ forall i, r.[i] = if (b <=? i) && (i <? k) then src.[i] else dst.[i])); [lia| | |auto].
    + split; auto. intros i. destruct (Nat.leb_spec b i), (Nat.ltb_spec i b); auto; lia.
    + intros k r Hk (L & I). apply wp_bind. apply wp_rd; [lia|]. apply wp_wr; [lia|]. rewrite upd_length. split; auto. intros i.
      destruct (Nat.eq_dec i k) as [->|N].
      * rewrite aget_upd_eq by lia. destruct (Nat.leb_spec b k), (Nat.ltb_spec k (S k)); auto; lia.
      * rewrite aget_upd_ne by auto. rewrite I. destruct (Nat.leb_spec b i), (Nat.ltb_spec i k), (Nat.ltb_spec i (S k)); auto; lia.
  - exists dst. split; [|split; auto].
    + unfold copy_vector_dense, for_. replace (e - b) with 0 by lia. reflexivity.
    + intros i. destruct (Nat.leb_spec b i), (Nat.ltb_spec i e); auto; lia.
Qed.

Variables (zero : V) (gtb : V -> V -> bool) (dist : V -> V -> V) (mag : V -> V).

(** what IEEE comparisons satisfy, NaNs included: nothing is larger than itself, and what is not larger than [r] is not
    larger than something larger than [r] *)
Definition order_like : Prop := (forall a, gtb a a = false) /\ forall d r r', gtb d r = false -> gtb r' r = true -> gtb d r' = false.

(** [r] is the largest of [zero] and the [f i] *)
Definition largest (f : nat -> V) (lo hi : nat) (r : V) : Prop :=
  (r = zero \/ exists i, lo <= i < hi /\ r = f i) /\ gtb zero r = false /\ forall i, lo <= i < hi -> gtb (f i) r = false.

Lemma max_wp (f : nat -> V) (g : nat -> res V) lo hi : order_like -> lo <= hi -> (forall i, lo <= i < hi -> g i = Ok (f i)) ->
  wp (for_ lo hi (fun i mx => d <- g i ;; Ok (if gtb d mx then d else mx)) zero) (largest f lo hi).
Proof.
  intros (O1 & O2) Hle Hg. apply (wp_for (fun k r => largest f lo k r)); [lia| | |auto].
  - split; [now left|]. split; auto. intros; lia.
  - intros k r Hk (R1 & R2 & R3). rewrite Hg by lia. cbn [bind]. apply wp_ret. destruct (gtb (f k) r) eqn:E.
    + unfold largest. splits.
      * right. exists k. split; auto; lia.
      * eapply O2; eauto.
      * intros i Hi. destruct (Nat.eq_dec i k) as [->|]; auto. eapply O2; [apply R3; lia|auto].
    + unfold largest. splits; auto.
      * destruct R1 as [->|(i & Hi & ->)]; [now left|right]. exists i. split; auto; lia.
      * intros i Hi. destruct (Nat.eq_dec i k) as [->|]; auto. apply R3. lia.
Qed.

(** residual and norm return the largest distance or magnitude, at least the initial 0. *)
Theorem C126_residual : forall lo hi (x0 x1 : list V), order_like -> lo <= hi -> hi <= length x0 -> hi <= length x1 ->
  exists r, residual zero gtb dist lo hi x0 x1 = Ok r /\ largest (fun i => dist x0.[i] x1.[i]) lo hi r.
Proof.
  intros lo hi x0 x1 O H H0 H1. apply wp_ok.
  pose proof (max_wp (fun i => dist x0.[i] x1.[i]) (fun i => a <- rd x0 i ;; b <- rd x1 i ;; Ok (dist a b)) lo hi O H) as G.
  lapply G; [clear G; intros G|intros i Hi; now rewrite !rd_ok by lia].
  unfold residual. match goal with G : wp ?m _ |- wp ?m' _ => replace m' with m; [exact G|] end.
  unfold for_. clear - zero. generalize (hi - lo) as k. intros k. generalize zero as z. revert lo. induction k as [|k IH]; intros lo z; [reflexivity|].
  cbn [for_n]. destruct (rd x0 lo); cbn [bind]; auto. destruct (rd x1 lo); cbn [bind]; auto.
Qed.

Theorem C126_norm : forall n (v : list V), order_like -> n <= length v ->
  exists r, norm zero gtb mag n v = Ok r /\ largest (fun i => mag v.[i]) 0 n r.
Proof.
  intros n v O H. apply wp_ok. 
  pose proof (max_wp (fun i => mag v.[i]) (fun i => a <- rd v i ;; Ok (mag a)) 0 n O ltac:(lia)) as G.
  lapply G; [clear G; intros G|intros i Hi; now rewrite !rd_ok by lia].
  unfold norm. match goal with G : wp ?m _ |- wp ?m' _ => replace m' with m; [exact G|] end.
  unfold for_. clear - zero. generalize (n - 0) as k. intros k. generalize zero as z. generalize 0 as lo. induction k as [|k IH]; intros lo z; [reflexivity|].
  cbn [for_n]. destruct (rd v lo); cbn [bind]; auto.
Qed.
End Query.
Print Assumptions C126_empty_columns.
Print Assumptions C126_nnz_per_column.
Print Assumptions C126_diagonal_first.
Print Assumptions C126_diagonal_positions.
Print Assumptions C126_copy.
Print Assumptions C126_residual.
Print Assumptions C126_norm.

(** An empty last column: the entry behind the last one is read, which is outside the array, or unused memory of it, and
    then the check can pass without an entry in that column. *)
Theorem C126_empty_last_column_refuted : forall V (DV : Dflt V) (x : V),
  (exists A : csc V, wf_csc (cn A) (cp A) (ci A) /\ col (cp A) (ci A) (cx A) 1 = [] /\ verify_csc_diagonal A = Ok true) /\
  (exists A : csc V, wf_csc (cn A) (cp A) (ci A) /\ col (cp A) (ci A) (cx A) 1 = [] /\ verify_csc_diagonal A = Err OOB).
Proof.
  intros V DV x. split.
  - exists (mkCSC 2 2 2 false 0%Z [0;1;1] [0;1] [x;x]). splits; try reflexivity. unfold wf_csc. cbn.
    (splits; try lia); intros k Hk; do 3 (destruct k as [|k]; [cbn; lia|]); lia.
  - exists (mkCSC 2 2 1 false 0%Z [0;1;1] [0] [x]). splits; try reflexivity. unfold wf_csc. cbn.
    (splits; try lia); intros k Hk; do 3 (destruct k as [|k]; [cbn; lia|]); lia.
Qed.
Print Assumptions C126_empty_last_column_refuted.

(** A NaN is never larger ([None] below): the residual of a vector of NaNs is 0, as if the vectors agreed. *)
Theorem C126_nan_refuted : exists gtb (dist : option nat -> option nat -> option nat),
  order_like gtb /\ (forall a, gtb None a = false) /\ (forall a, dist None a = None) /\
  residual (Some 0) gtb dist 0 3 [None;None;None] [Some 1;Some 2;Some 3] = Ok (Some 0).
Proof.
  exists (fun a b => match a, b with Some x, Some y => y <? x | _, _ => false end),
         (fun a b => match a, b with Some x, Some y => Some (x - y + (y - x)) | _, _ => None end).
  splits; auto. split.
  - intros [a|]; auto. apply Nat.ltb_irrefl.
  - intros [d|] [r|] [r'|]; auto; lia.
Qed.
Print Assumptions C126_nan_refuted.

Example C126_nonvacuous :
  order_like (fun x y => Nat.ltb y x) /\
  wf_csc 3 [0;2;4;5] [0;1;2;1;2] /\ ([0;2;4;5]).[3 - 1] < ([0;2;4;5]).[3] /\
  verify_csc_diagonal (mkCSC 3 3 5 false 0%Z [0;2;4;5] [0;1;2;1;2] [1;2;3;4;5]) = Ok false /\
  extract_diagonals 3 [0;2;4;5] [0;1;2;1;2] = Ok [Some 0;Some 3;Some 4] /\
  number_empty_col (mkCSC 3 3 2 false 0%Z [0;0;2;2] [0;1] [1;2]) = Ok 2 /\
  residual 0 (fun x y => y <? x) (fun a b => (a - b) + (b - a)) 1 3 [9;5;6] [0;3;9] = Ok 3.
Proof.
  split; [split; [intros a; apply Nat.ltb_irrefl|intros d r r'; lia]|].
  splits; try reflexivity.
  - unfold wf_csc. cbn. (splits; try lia); intros k Hk; do 5 (destruct k as [|k]; [cbn; lia|]); lia.
  - cbn. lia.
Qed.
