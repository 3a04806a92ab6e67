(** Property C122: random_square_sparse. *)
From Coq Require Import ZifyBool ZifyNat.
From Verif Require Import Base Lib Lib2 Spec SpecMat SpecSolve M_Mat M_TestUtil.

(** * C122: random_square_sparse *)

(** the number of entries per column: [nz] cut to n; a negative one counts as larger than n *)
Definition per_col (n : nat) (nz : Z) : nat := if (nz <? 0)%Z then n else Nat.min n (Z.to_nat nz).

Lemma generate_eq m (s : list nat) : m <= length s -> generate_uniq_rand_vector m s [] = Ok (firstn m s).
Proof.
  intros H. unfold generate_uniq_rand_vector.
  assert (G : wp (for_ 0 m (fun j v => x <- rd s j ;; Ok (v ++ [x])) []) (fun v => v = firstn m s)).
  { apply (wp_for (fun k (v : list nat) => v = firstn k s)); [lia|reflexivity| |auto].
    intros k v Hk ->. apply wp_bind. apply wp_rd; [lia|]. apply wp_ret.
    clear - Hk H. assert (k < length s) by lia. clear Hk H. revert k H0. induction s as [|x s IH]; intros k Hk; simpl in Hk; [lia|].
    destruct k; simpl; [reflexivity|]. f_equal. apply IH. lia. }
  apply wp_ok in G. destruct G as (v & -> & ->). reflexivity.
Qed.

Lemma nodup_firstn {A} k (l : list A) : NoDup l -> NoDup (firstn k l).
Proof.
  revert k. induction l as [|x l IH]; intros k H; [now rewrite firstn_nil|]. destruct k; [constructor|]. inversion H; subst. cbn [firstn]. constructor; auto.
  intros I. apply H2. rewrite <- (firstn_skipn k l). apply in_or_app. auto.
Qed.

(** one column of the random matrix *)
Definition good_col (n c npc : nat) (v : list nat) : Prop :=
  length v = npc /\ NoDup v /\ (forall x, In x v -> x < n) /\ In c v /\ sorted_le v.

Lemma column_good n c npc s : c < n -> 0 < npc <= n -> Permutation s (seq 0 n) ->
  exists v, (v0 <- generate_uniq_rand_vector npc s [] ;; (if existsb (Nat.eqb c) v0 then Ok v0 else wr v0 0 c)) = Ok v /\ good_col n c npc (isort v).
Proof.
  intros Hc Hn HP. assert (Ls : length s = n) by (rewrite (Permutation_length HP); apply seq_length).
  assert (ND : NoDup s) by (eapply Permutation_NoDup; [symmetry; exact HP|apply seq_NoDup]).
  assert (RG : forall x, In x s -> x < n) by (intros x Hx; apply (Permutation_in _ HP) in Hx; apply in_seq in Hx; lia).
  rewrite generate_eq by lia. cbn [bind].
  assert (F : forall x, In x (firstn npc s) -> In x s) by (intros x Hx; rewrite <- (firstn_skipn npc s); apply in_or_app; auto).
  assert (NF : NoDup (firstn npc s)).
  { now apply nodup_firstn. }
  assert (LF : length (firstn npc s) = npc) by (rewrite firstn_length; lia).
  assert (G : forall v, length v = npc -> NoDup v -> (forall x, In x v -> x < n) -> In c v -> good_col n c npc (isort v)).
  { intros v L N R I. unfold good_col. split; [now rewrite isort_length|]. split; [eapply Permutation_NoDup; [apply isort_perm|auto]|].
    split; [intros x Hx; apply R; now apply (proj1 (isort_In x v))|]. split; [now apply (proj2 (isort_In c v))|apply isort_sorted]. }
  destruct (existsb (Nat.eqb c) (firstn npc s)) eqn:E.
  - exists (firstn npc s). split; auto. apply G; auto. apply existsb_exists in E. destruct E as (x & Hx & E). apply Nat.eqb_eq in E. now subst.
  - assert (NI : ~ In c (firstn npc s)).
    { intros I. assert (existsb (Nat.eqb c) (firstn npc s) = true) by (apply existsb_exists; exists c; split; auto; apply Nat.eqb_refl). congruence. }
    destruct (firstn npc s) as [|x v] eqn:Ev; [simpl in LF; lia|]. exists (c :: v). split; [reflexivity|]. apply G; auto.
    + inversion NF; subst. constructor; auto. intros I. apply NI. now right.
    + intros y [<-|Hy]; auto. apply RG, F. now right.
    + now left.
Qed.

Section Random.
Context {V : Type} {DV : Dflt V}.
Variables (n npc : nat) (rnd : nat -> V).

Lemma fill_wp (v : list nat) a (idx : list nat) (x : list V) (Q : list nat * list V -> Prop) :
  length v = npc -> a + npc <= length idx -> a + npc <= length x ->
  (forall idx' x', length idx' = length idx -> length x' = length x ->
     (forall j, j < npc -> idx'.[a + j] = v.[j]) -> (forall k, k < a -> idx'.[k] = idx.[k]) ->
     (forall k, a <= k < a + npc -> x'.[k] = rnd k) -> (forall k, k < a -> x'.[k] = x.[k]) -> Q (idx', x')) ->
  wp (for_ a (a + npc) (fun j '(idx, x) => r <- rd v (j - a) ;; idx <- wr idx j r ;; x <- wr x j (rnd j) ;; Ok (idx, x)) (idx, x)) Q.
Proof.
  intros Lv Li Lx HQ.
  apply (wp_for (fun m '(idx', x') => length idx' = length idx /\ length x' = length x /\
     (forall j, a + j < m -> idx'.[a + j] = v.[j]) /\ (forall k, k < a -> idx'.[k] = idx.[k]) /\
     (forall k, a <= k < m -> x'.[k] = rnd k) /\ (forall k, k < a -> x'.[k] = x.[k]))); [lia| | |].
  - splits; auto; intros; lia.
  - intros m (idx', x') Hm (L1 & L2 & I1 & I2 & I3 & I4). apply wp_bind. apply wp_rd; [lia|].
    apply wp_bind. apply wp_wr; [lia|]. apply wp_bind. apply wp_wr; [lia|]. apply wp_ret. rewrite !upd_length. splits; auto.
    + intros j Hj. destruct (Nat.eq_dec (a + j) m) as [<-|N].
      * rewrite aget_upd_eq by lia. f_equal. lia.
      * rewrite aget_upd_ne by lia. apply I1. lia.
    + intros k Hk. rewrite aget_upd_ne by lia. auto.
    + intros k Hk. destruct (Nat.eq_dec k m) as [->|N]; [now rewrite aget_upd_eq by lia|]. rewrite aget_upd_ne by lia. apply I3. lia.
    + intros k Hk. rewrite aget_upd_ne by lia. auto.
  - intros (idx', x') (L1 & L2 & I1 & I2 & I3 & I4). apply HQ; auto. intros j Hj. apply I1. lia.
Qed.

(** columns below [m] are done *)
Definition rnd_inv (m : nat) (s : list nat * list nat * list V) : Prop :=
  let '(p, idx, x) := s in
  length p = S n /\ length idx = n * npc /\ length x = n * npc /\ (forall c, c <= m -> p.[c] = c * npc) /\
  (forall c, c < m -> exists v, good_col n c npc v /\ forall j, j < npc -> idx.[c * npc + j] = v.[j]) /\
  (forall k, k < m * npc -> x.[k] = rnd k).
End Random.

Lemma col_pos c k npc : c * npc <= k < S c * npc -> k = c * npc + (k - c * npc) /\ k - c * npc < npc.
Proof. lia. Qed.

Theorem C122_random_matrix : forall (V : Type) (DV : Dflt V) n nz shuffle (rnd : nat -> V),
  0 < n -> nz <> 0%Z -> (forall i, i < n -> Permutation (shuffle i (seq 0 n)) (seq 0 n)) ->
  (Z.of_nat (n * per_col n nz) <= 2147483647)%Z ->
  exists A, random_square_sparse n nz shuffle rnd = Ok (Some A) /\ cm A = n /\ cn A = n /\ cnnz A = n * per_col n nz /\
    cpat A = false /\ cst A = 0%Z /\ length (cp A) = S n /\ length (ci A) = cnnz A /\ length (cx A) = cnnz A /\
    (forall c, c <= n -> (cp A).[c] = c * per_col n nz) /\
    wf_csc n (cp A) (ci A) /\ sorted_cols n (cp A) (ci A) /\ (forall c, c < n -> entry (cp A) (ci A) c c) /\
    (forall k, k < cnnz A -> (cx A).[k] = rnd k).
Proof.
  intros V DV n nz shuffle rnd Hn Hz HS HM. unfold random_square_sparse.
  replace (if (nz <? 0)%Z || (Z.of_nat n <? nz)%Z then n else Z.to_nat nz) with (per_col n nz).
  2:{ unfold per_col. destruct (Z.ltb_spec nz 0); cbn [orb]; auto. destruct (Z.ltb_spec (Z.of_nat n) nz); lia. }
  set (npc := per_col n nz) in *. assert (HN : 0 < npc <= n) by (unfold npc, per_col; destruct (Z.ltb_spec nz 0); lia).
  replace (2147483647 <? Z.of_nat (n * npc))%Z with false by lia. cbv zeta.
  match goal with |- exists A, ?m = _ /\ _ => assert (G : wp m (fun o => exists p i x, o = Some (mkCSC n n (n * npc) false 0%Z p i x) /\ rnd_inv n npc rnd n (p, i, x))) end.
  { cbn [new_csc cp ci cx]. replace (0 <? n) with true by lia. apply wp_bind. apply wp_wr; [rewrite repeat_length; lia|].
    apply wp_bind. apply (wp_for (rnd_inv n npc rnd)); [lia| | |].
    - unfold rnd_inv. rewrite upd_length, !repeat_length. splits; try lia.
      + intros c Hc. replace c with 0 by lia. rewrite aget_upd_eq by (rewrite repeat_length; lia). lia.
    - intros c ((p, idx), x) Hc (L1 & L2 & L3 & I1 & I2 & I3). apply wp_bind. apply wp_rd; [lia|]. apply wp_bind. apply wp_wr; [lia|].
      rewrite (I1 c) by lia.
      destruct (column_good n c npc (shuffle c (seq 0 n)) ltac:(lia) HN (HS c ltac:(lia))) as (v & Ev & Gv).
      destruct (generate_uniq_rand_vector npc (shuffle c (seq 0 n)) []) as [v0|]; cbn [bind] in *; [|discriminate].
      rewrite Ev. cbn [bind]. pose proof Gv as (Lv & _). assert (BD : S c * npc <= n * npc) by (apply Nat.mul_le_mono_r; lia).
      apply wp_bind. apply (fill_wp npc); [auto|lia|lia|]. intros idx' x' L4 L5 F1 F2 F3 F4. apply wp_ret.
      unfold rnd_inv. rewrite upd_length. splits; try lia.
      + intros d Hd. destruct (Nat.eq_dec d (S c)) as [->|N]; [rewrite aget_upd_eq by lia; lia|]. rewrite aget_upd_ne by auto. apply I1. lia.
      + intros d Hd. destruct (Nat.eq_dec d c) as [->|N]; [exists (isort v); auto|].
        destruct (I2 d ltac:(lia)) as (w & Gw & Hw). exists w. split; auto. intros j Hj. rewrite F2; auto.
        assert (S d * npc <= c * npc) by (apply Nat.mul_le_mono_r; lia). lia.
      + intros k Hk. destruct (Nat.lt_ge_cases k (c * npc)); [rewrite F4 by auto; auto|]. apply F3. lia.
    - intros ((p, idx), x) I. apply wp_ret. exists p, idx, x. auto. }
  apply wp_ok in G. destruct G as (o & -> & p & i & x & -> & (L1 & L2 & L3 & I1 & I2 & I3)).
  eexists. split; [reflexivity|]. cbn [cm cn cnnz cpat cst cp ci cx].
  assert (B : forall c, c < n -> S c * npc <= n * npc) by (intros; apply Nat.mul_le_mono_r; lia).
  assert (COL : forall c k, c < n -> p.[c] <= k < p.[S c] -> c * npc <= k < S c * npc) by (intros c k Hc Hk; rewrite !I1 in Hk by lia; lia).
  splits; auto.
  - unfold wf_csc. splits; try lia.
    + rewrite I1 by lia. lia.
    + intros c Hc. rewrite !I1 by lia. lia.
    + rewrite I1 by lia. lia.
    + intros k Hk. rewrite I1 in Hk by lia.
      assert (Hc : k / npc < n) by (apply Nat.div_lt_upper_bound; lia).
      destruct (I2 _ Hc) as (v & (Lv & _ & R & _) & Ev). pose proof (Nat.div_mod_eq k npc). pose proof (Nat.mod_upper_bound k npc ltac:(lia)).
      replace k with (k / npc * npc + k mod npc) by lia. rewrite Ev by auto. apply R. apply nth_In. lia.
  - intros c k k' Hc H1 H2 H3. destruct (I2 c Hc) as (v & (Lv & ND & _ & _ & SV) & Ev). rewrite !I1 in * by lia.
    replace k with (c * npc + (k - c * npc)) by lia. replace k' with (c * npc + (k' - c * npc)) by lia. rewrite !Ev by lia.
    assert (v.[k - c * npc] <= v.[k' - c * npc]) by (apply SV; lia).
    assert (v.[k - c * npc] <> v.[k' - c * npc]); [|lia]. intros E. apply (proj1 (NoDup_nth v dflt)) in E; auto; lia.
  - intros c Hc. destruct (I2 c Hc) as (v & (Lv & ND & _ & Iv & SV) & Ev). apply In_nth with (d := dflt) in Iv. destruct Iv as (j & Hj & E).
    exists (c * npc + j). rewrite !I1 by lia. split; [lia|]. rewrite Ev by lia. exact E.
Qed.
Print Assumptions C122_random_matrix.

(** too many entries: no matrix *)
Theorem C122_too_large : forall (V : Type) (DV : Dflt V) n nz shuffle (rnd : nat -> V),
  (2147483647 < Z.of_nat (n * per_col n nz))%Z -> random_square_sparse n nz shuffle rnd = Ok None.
Proof.
  intros V DV n nz shuffle rnd HM. unfold random_square_sparse.
  replace (if (nz <? 0)%Z || (Z.of_nat n <? nz)%Z then n else Z.to_nat nz) with (per_col n nz).
  2:{ unfold per_col. destruct (Z.ltb_spec nz 0); cbn [orb]; auto. destruct (Z.ltb_spec (Z.of_nat n) nz); lia. }
  replace (2147483647 <? Z.of_nat (n * per_col n nz))%Z with true by lia. reflexivity.
Qed.
Print Assumptions C122_too_large.

(** A matrix of order 0, and a density between -2/n and 0 (no entry per column): a write to an element that does not exist. *)
Theorem C122_empty_refuted : forall (V : Type) (DV : Dflt V) n nz shuffle (rnd : nat -> V),
  n = 0 \/ nz = 0%Z -> random_square_sparse n nz shuffle rnd = Err OOB.
Proof.
  intros V DV n nz shuffle rnd H. unfold random_square_sparse. destruct (Nat.eq_dec n 0) as [->|N]; [reflexivity|].
  destruct H as [H|H]; [congruence|]. subst nz. replace ((0 <? 0)%Z || (Z.of_nat n <? 0)%Z) with false by lia. cbn [Z.to_nat].
  rewrite Nat.mul_0_r. cbn [Z.of_nat Z.ltb Z.compare new_csc cp ci cx repeat].
  destruct n as [|n]; [congruence|]. cbn [Nat.ltb Nat.leb repeat Nat.add]. rewrite Nat.add_1_r. reflexivity.
Qed.
Print Assumptions C122_empty_refuted.

Example C122_nonvacuous :
  random_square_sparse 4 2 (fun i l => rev (skipn i l ++ firstn i l)) (fun k => Z.of_nat k) =
    Ok (Some (mkCSC 4 4 8 false 0%Z [0;2;4;6;8] [0;2;1;3;0;2;1;3] [0;1;2;3;4;5;6;7]%Z)) /\
  (forall i, i < 4 -> Permutation ((fun i l => rev (skipn i l ++ firstn i l)) i (seq 0 4)) (seq 0 4)).
Proof.
  split; [vm_compute; reflexivity|]. intros i _. cbn beta. rewrite <- Permutation_rev. rewrite Permutation_app_comm. now rewrite firstn_skipn.
Qed.
