(** Proofs about permute_general, the copies and tridiag. *)
From Coq Require Import ZifyBool ZifyNat.
From Verif Require Import Base Lib Lib2 Lib3 Spec SpecMat M_Mat L_Mat L_Mat2.

Lemma sum_r_perm n q (g : nat -> nat) : is_perm n q -> sum_r 0 n (fun k => g q.[k]) = sum_r 0 n g.
Proof.
  intros Hq. pose proof (proj1 (is_perm_Permutation n q) Hq) as HP. destruct Hq as (L & _ & _).
  unfold sum_r. rewrite Nat.sub_0_r.
  transitivity (list_sum (map g q)).
  - rewrite <- (map_map (aget q) g). rewrite <- L at 1. now rewrite map_aget_seq.
  - apply Permutation_map with (f := g) in HP.
    assert (G : forall l l', Permutation l l' -> list_sum l = list_sum l').
    { intros l l' H. induction H; simpl; lia. }
    now apply G.
Qed.

Lemma sum_r_ptr (Ap : list nat) n : Ap.[0] = 0 -> (forall i, i < n -> Ap.[i] <= Ap.[S i]) ->
  sum_r 0 n (fun c => Ap.[S c] - Ap.[c]) = Ap.[n].
Proof.
  intros H0 HM. induction n as [|n IH].
  - rewrite sum_r_nil by lia. auto.
  - rewrite sum_r_S, IH by (try intros; try apply HM; lia). specialize (HM n ltac:(lia)). lia.
Qed.

Section Perm.
Context {V : Type} {DV : Dflt V}.
Variables (A : csc V) (pinv q : option (list nat)).

Definition qf (k : nat) : nat := match q with Some q => q.[k] | None => k end.
Definition pf (r : nat) : nat := match pinv with Some p => p.[r] | None => r end.
Definition plen (k : nat) : nat := (cp A).[S (qf k)] - (cp A).[qf k].
Definition poff (k : nat) : nat := sum_r 0 k plen.

Hypothesis HA : mat_ok A.
Hypothesis HX : (cp A).[cn A] <= length (cx A).
Hypothesis Hn : 0 < cn A.
Hypothesis Hq : match q with Some q => is_perm (cn A) q | None => True end.
Hypothesis Hp : match pinv with Some p => cm A <= length p /\ forall r, r < cm A -> p.[r] < cm A | None => True end.

Lemma qf_lt k : k < cn A -> qf k < cn A.
Proof.
  intros Hk. unfold qf. destruct q as [l|]; auto. destruct Hq as (L & _ & H). apply H. apply aget_In. lia.
Qed.

Lemma pf_lt r : r < cm A -> pf r < cm A.
Proof. intros Hr. unfold pf. destruct pinv as [l|]; auto. destruct Hp as (L & H). auto. Qed.

Lemma poff_n : poff (cn A) = (cp A).[cn A].
Proof.
  pose proof HA as ((W1 & W2 & W3 & W4 & W5) & _). rewrite <- (sum_r_ptr (cp A) (cn A)) by auto.
  unfold poff, plen, qf. destruct q as [l|]; auto.
  exact (sum_r_perm (cn A) l (fun c => (cp A).[S c] - (cp A).[c]) Hq).
Qed.

Lemma poff_S k : poff (S k) = poff k + plen k.
Proof. unfold poff. now rewrite sum_r_S by lia. Qed.

Lemma poff_le k k' : k <= k' -> poff k <= poff k'.
Proof. intros H. unfold poff. rewrite (sum_r_split 0 k k') by lia. lia. Qed.

(** positions below [z] hold the entries of columns before [k] and the first ones of [k] *)
Definition pinvt (k t : nat) (st : list nat * list V * nat) : Prop :=
  let '(i, x, nz) := st in
  length i = cnnz A /\ length x = cnnz A /\ nz = poff k + t /\
  (forall k' s, k' < k /\ s < plen k' \/ k' = k /\ s < t ->
     i.[poff k' + s] = pf (ci A).[(cp A).[qf k'] + s] /\ x.[poff k' + s] = (cx A).[(cp A).[qf k'] + s]).

Lemma perm_step k t i x nz : k < cn A -> t < plen k -> pinvt k t (i, x, nz) ->
  wp (x' <- (if cnnz A =? 0 then Ok x else v <- rd (cx A) ((cp A).[qf k] + t) ;; wr x nz v) ;;
      r <- rd (ci A) ((cp A).[qf k] + t) ;;
      r' <- match pinv with Some pv => rd pv r | None => Ok r end ;;
      i' <- wr i nz r' ;; Ok (i', x', nz + 1)) (pinvt k (S t)).
Proof.
  intros Hk Ht (I1 & I2 & I3 & I4). pose proof HA as (W & HN & _). pose proof W as (W1 & W2 & W3 & W4 & W5).
  pose proof (qf_lt k Hk) as Hqk. pose proof (wf_mat_le _ _ _ _ (S (qf k)) W ltac:(lia)) as HL.
  assert (Hb : (cp A).[qf k] + t < (cp A).[cn A]) by (unfold plen in Ht; lia).
  assert (Hz : nz < cnnz A).
  { pose proof (poff_le (S k) (cn A) ltac:(lia)). rewrite poff_n, poff_S in *. lia. }
  replace (cnnz A =? 0) with false by lia. apply wp_bind. wp1. apply wp_rd; [lia|]. apply wp_wr; [lia|].
  wp1. apply wp_rd; [lia|]. apply wp_bind.
  assert (G : wp (i' <- wr i nz (pf (ci A).[(cp A).[qf k] + t]) ;;
                  Ok (i', upd x nz (cx A).[(cp A).[qf k] + t], nz + 1)) (pinvt k (S t))).
  { wp1. apply wp_wr; [lia|]. cbn [wp]. unfold pinvt. rewrite !upd_length. splits; auto; try lia.
    intros k' s Hs. destruct (Nat.eq_dec (poff k' + s) nz) as [E|E].
    - assert (k' = k /\ s = t) as [-> ->].
      { destruct Hs as [[Hk' Hs]|[-> Hs]]; [|lia]. pose proof (poff_le (S k') k ltac:(lia)). rewrite poff_S in *. lia. }
      rewrite E, !aget_upd_eq by lia. auto.
    - rewrite !aget_upd_ne by auto. apply I4. destruct Hs as [Hs|[-> Hs]]; [left; auto|right; split; auto; lia]. }
  unfold pf in G. destruct pinv as [pv|].
  - apply wp_rd; [destruct Hp; specialize (W5 _ Hb); lia|]. exact G.
  - cbn [wp]. exact G.
Qed.

Lemma permute_general_wp (Q : csc V -> Prop) :
  (forall C, cm C = cm A -> cn C = cn A -> cnnz C = cnnz A -> wf_mat (cm A) (cn A) (cp C) (ci C) ->
     (cp C).[cn A] <= length (cx C) ->
     (forall k, k < cn A -> col (cp C) (ci C) (cx C) k = map (fun e => (pf (fst e), snd e)) (col (cp A) (ci A) (cx A) (qf k))) -> Q C) ->
  wp (permute_general A pinv q) Q.
Proof.
  intros HQ. pose proof HA as (W & HN & _). pose proof W as (W1 & W2 & W3 & W4 & W5). unfold permute_general, new_csc.
  cbn [cm cn cnnz cpat cst cp ci cx]. replace (0 <? cn A) with true by lia. apply wp_bind.
  apply wp_for with (I := fun k '(p, i, x, nz) => length p = S (cn A) /\ (forall t, t < k -> p.[t] = poff t) /\ pinvt k 0 (i, x, nz)).
  - lia.
  - unfold pinvt. rewrite !repeat_length. splits; auto; try lia.
  - intros k [[[p i] x] nz] Hk (I1 & I2 & I3). wp1. apply wp_wr; [lia|]. apply wp_bind.
    assert (Hqk := qf_lt k ltac:(lia)). specialize (W3 (qf k) Hqk) as Hm.
    assert (G : wp (a <- rd (cp A) (qf k) ;; b <- rd (cp A) (S (qf k)) ;;
      '(i', x', nz') <- for_ a b (fun t '(i, x, nz) =>
          x' <- (if cnnz A =? 0 then Ok x else v <- rd (cx A) t ;; wr x nz v) ;;
          r <- rd (ci A) t ;;
          r' <- match pinv with Some pv => rd pv r | None => Ok r end ;;
          i' <- wr i nz r' ;; Ok (i', x', nz + 1)) (i, x, nz) ;;
      Ok (upd p k nz, i', x', nz')) (fun '(p, i, x, nz) => length p = S (cn A) /\ (forall t, t < S k -> p.[t] = poff t) /\ pinvt (S k) 0 (i, x, nz))).
    { wp1. apply wp_rd; [lia|]. wp1. apply wp_rd; [lia|]. apply wp_bind.
      apply wp_for with (I := fun t st => pinvt k (t - (cp A).[qf k]) st); auto.
      - now rewrite Nat.sub_diag.
      - intros t [[i1 x1] z1] Ht HI. replace (S t - (cp A).[qf k]) with (S (t - (cp A).[qf k])) by lia.
        pose proof (perm_step k (t - (cp A).[qf k]) i1 x1 z1 ltac:(lia) ltac:(unfold plen; lia) HI) as G.
        now replace ((cp A).[qf k] + (t - (cp A).[qf k])) with t in G by lia.
      - intros [[i1 x1] z1] (J1 & J2 & J3 & J4). cbn [wp]. rewrite upd_length. fold (plen k) in *. splits; auto.
        + intros t Ht. destruct (Nat.eq_dec t k) as [->|Hne].
          * rewrite aget_upd_eq by lia. destruct I3 as (_ & _ & -> & _). lia.
          * rewrite aget_upd_ne by auto. apply I2. lia.
        + unfold pinvt. rewrite poff_S. splits; auto; [lia|].
          intros k' s Hs. apply J4. destruct Hs as [[Hk' Hs]|[_ Hs]]; [|lia].
          destruct (Nat.eq_dec k' k) as [->|Hne]; [right; auto|left; split; auto; lia]. }
    unfold qf in G. destruct q as [l|].
    + apply wp_rd; [destruct Hq; lia|]. exact G.
    + cbn [wp]. exact G.
  - intros [[[p i] x] nz] (I1 & I2 & (J1 & J2 & J3 & J4)). wp1. apply wp_wr; [lia|]. cbn [wp].
    assert (HP : forall t, t <= cn A -> (upd p (cn A) nz).[t] = poff t).
    { intros t Ht. destruct (Nat.eq_dec t (cn A)) as [->|Hne]; [rewrite aget_upd_eq by lia; lia|].
      rewrite aget_upd_ne by auto. apply I2. lia. }
    assert (HB : forall k s, k < cn A -> s < plen k -> (cp A).[qf k] + s < (cp A).[cn A]).
    { intros k s Hk Hs. pose proof (qf_lt k Hk). pose proof (wf_mat_le _ _ _ _ (S (qf k)) W ltac:(lia)). unfold plen in Hs. lia. }
    apply HQ; auto; cbn [cm cn cnnz cpat cst cp ci cx].
    + unfold wf_mat. rewrite upd_length. splits; try lia.
      * rewrite HP by lia. reflexivity.
      * intros k Hk. rewrite !HP by lia. apply poff_le. lia.
      * rewrite HP, poff_n by lia. lia.
      * intros z Hz. rewrite HP in Hz by lia.
        destruct (bucket_exists poff (cn A) z) as (k & Hk & Hzk); try (cbn; lia).
        rewrite poff_S in Hzk. destruct (J4 k (z - poff k)) as [E _]; [left; split; auto; lia|].
        replace (poff k + (z - poff k)) with z in E by lia. rewrite E. apply pf_lt. apply W5. apply HB; auto. lia.
    + rewrite HP, poff_n by lia. lia.
    + intros k Hk. unfold col. rewrite !HP, poff_S by lia. rewrite map_map. fold (plen k).
      replace (poff k + plen k - poff k) with (plen k) by lia.
      apply list_ext; [now rewrite !map_length, !seq_length|]. intros s Hs. rewrite map_length, seq_length in Hs.
      rewrite !aget_map by (rewrite seq_length; auto). rewrite !aget_seq by auto. cbn [fst snd].
      destruct (J4 k s) as [E1 E2]; [left; auto|]. now rewrite E1, E2.
Qed.

End Perm.
