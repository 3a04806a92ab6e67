(** Proofs about supernode detection. *)
From Coq Require Import ZifyBool ZifyNat.
From Verif Require Import Base Lib Lib2 Lib3 Spec SpecSuper M_Super.

Lemma same_entries_wp Li a b k (Q : bool -> Prop) : a + k <= length Li -> b + k <= length Li ->
  (forall r, (r = true <-> slice Li a (a + k) = slice Li b (b + k)) -> Q r) -> wp (same_entries Li a b k) Q.
Proof.
  intros Ha Hb HQ.
  assert (X : forall r : bool, (r = true <-> forall i, i < k -> Li.[a + i] = Li.[b + i]) -> Q r).
  { intros r Hr. apply HQ. rewrite Hr. split; intros H.
    - apply list_ext; [rewrite !slice_length; lia|]. intros i Hi. rewrite slice_length in Hi by lia.
      rewrite !aget_slice by lia. apply H. lia.
    - intros i Hi. assert (E : (slice Li a (a + k)).[i] = (slice Li b (b + k)).[i]) by now rewrite H.
      rewrite !aget_slice in E by lia. exact E. }
  unfold same_entries.
  apply wp_forb with (I := fun j (r : bool) => r = true /\ forall i, i < j -> Li.[a + i] = Li.[b + i]); [lia| | |].
  - split; auto. intros; lia.
  - intros j r Hj (-> & H1). apply wp_bind, wp_rd; [lia|]. apply wp_bind, wp_rd; [lia|]. apply wp_ret.
    destruct (Nat.eqb_spec Li.[a + j] Li.[b + j]) as [E|E].
    + split; auto. intros i Hi. destruct (Nat.eq_dec i j) as [->|]; auto. apply H1. lia.
    + apply X. split; [discriminate|]. intros H. exfalso. apply E. apply H. lia.
  - intros r (-> & H1). apply X. split; auto.
Qed.

Section Mat.
Variables (n : nat) (Lp Li : list nat).
Hypothesis W : wf_csc n Lp Li.

Lemma ptr_le i : i < n -> Lp.[i] <= Lp.[S i] /\ Lp.[S i] <= Lp.[n] /\ Lp.[n] <= length Li.
Proof.
  destruct W as (W1 & W2 & W3 & W4 & W5). intros Hi. splits; auto. apply (mono_le (aget Lp) n); auto.
Qed.

Lemma column_length u : u < n -> length (column Lp Li u) = Lp.[S u] - Lp.[u].
Proof. intros Hu. destruct (ptr_le u Hu) as (H1 & H2 & H3). apply slice_length; lia. Qed.

Lemma column_at u r : u < n -> r < Lp.[S u] - Lp.[u] -> (column Lp Li u).[r] = Li.[Lp.[u] + r].
Proof. intros Hu Hr. apply aget_slice. auto. Qed.

Lemma skipn_slice {A} (l : list A) a b k : a + k <= b -> skipn k (slice l a b) = slice l (a + k) b.
Proof.
  intros H. unfold slice. rewrite skipn_firstn_comm, skipn_skipn'. f_equal. lia.
Qed.

Lemma firstn_slice2 {A} (l : list A) a b k : a + k <= b -> firstn k (slice l a b) = slice l a (a + k).
Proof.
  intros H. unfold slice. rewrite firstn_firstn. f_equal. lia.
Qed.

Lemma same_below_refl u : same_below Lp Li u u.
Proof. unfold same_below. rewrite Nat.sub_diag. split; [lia|reflexivity]. Qed.
Lemma same_left_refl u : same_left Lp Li u u.
Proof. exists []. rewrite Nat.sub_diag, app_nil_r. auto. Qed.
Lemma same_above_refl u : same_above Lp Li u u.
Proof. exists []. rewrite Nat.sub_diag, app_nil_r. auto. Qed.

Lemma col_joins_wp checks first last (Q : bool -> Prop) : first <= last -> last < n ->
  (checks = true -> Lp.[last] < Lp.[S last]) ->
  (forall r, (r = true <-> same_below Lp Li first last) -> Q r) -> wp (col_joins checks Lp Li first last) Q.
Proof.
  intros Hf Hl HC HQ. destruct W as (W1 & _). destruct (ptr_le first ltac:(lia)) as (F1 & F2 & F3). destruct (ptr_le last Hl) as (L1 & L2 & L3).
  unfold col_joins. do 4 (apply wp_bind, wp_rd; [lia|]).
  destruct (Nat.eqb_spec (Lp.[S first] - Lp.[first]) (Lp.[S last] - Lp.[last] + (last - first))) as [E|E]; simpl.
  - assert (checks && (Lp.[S last] - Lp.[last] =? 0) = false) as ->.
    { destruct checks; simpl; auto. specialize (HC eq_refl). apply Nat.eqb_neq. lia. }
    apply same_entries_wp; [lia|lia|]. intros r Hr. apply HQ. rewrite Hr. unfold same_below. rewrite column_length by lia.
    unfold column. rewrite skipn_slice by lia.
    replace (Lp.[first] + (last - first) + (Lp.[S last] - Lp.[last])) with Lp.[S first] by lia.
    replace (Lp.[last] + (Lp.[S last] - Lp.[last])) with Lp.[S last] by lia. split; [intros ->; split; auto; lia|intros (_ & H); auto].
  - apply HQ. split; [discriminate|]. intros (H1 & H2). exfalso. apply E. apply (f_equal (@length nat)) in H2. rewrite skipn_length, !column_length in H2 by lia.
    rewrite column_length in H1 by lia. lia.
Qed.

Lemma row_joins_wp first last (Q : bool -> Prop) : first <= last -> last < n -> Lp.[first] < Lp.[S first] ->
  (forall r, (r = true <-> same_left Lp Li first last) -> Q r) -> wp (row_joins Lp Li first last) Q.
Proof.
  intros Hf Hl HC HQ. destruct W as (W1 & _). destruct (ptr_le first ltac:(lia)) as (F1 & F2 & F3). destruct (ptr_le last Hl) as (L1 & L2 & L3).
  unfold row_joins. do 4 (apply wp_bind, wp_rd; [lia|]).
  destruct (Nat.eqb_spec (Lp.[S last] - Lp.[last]) (Lp.[S first] - Lp.[first] + (last - first))) as [E|E]; simpl.
  - destruct (Nat.eqb_spec (Lp.[S first] - Lp.[first]) 0) as [E0|_]; [lia|].
    apply same_entries_wp; [lia|lia|]. intros r Hr. apply HQ. rewrite Hr. unfold same_left, column.
    replace (Lp.[first] + (Lp.[S first] - Lp.[first])) with Lp.[S first] by lia. split.
    + intros ->. exists (slice Li (Lp.[last] + (Lp.[S first] - Lp.[first])) Lp.[S last]). split; [rewrite slice_length; lia|].
      apply slice_app; lia.
    + intros (t & Ht & Et). apply (f_equal (firstn (Lp.[S first] - Lp.[first]))) in Et. rewrite firstn_slice2 in Et by lia. rewrite Et.
      rewrite firstn_app. rewrite slice_length by lia. rewrite Nat.sub_diag, firstn_O, app_nil_r. rewrite firstn_all2; auto. rewrite slice_length; lia.
  - apply HQ. split; [discriminate|]. intros (t & H1 & H2). exfalso. apply E. apply (f_equal (@length nat)) in H2. rewrite app_length, !column_length in H2 by lia. lia.
Qed.
End Mat.

(** * Runs *)

Section Run.
Variables (n : nat) (joins : nat -> nat -> res bool) (same : nat -> nat -> Prop).
Hypothesis Hrefl : forall u, same u u.
Hypothesis Hj : forall first last (Q : bool -> Prop), first <= last -> last < n -> (forall r : bool, (r = true <-> same first last) -> Q r) -> wp (joins first last) Q.

Lemma run_length_wp limit first (Q : nat -> Prop) : first < n ->
  (forall k, k <= limit -> first + k < n -> (forall v, first <= v <= first + k -> same first v) ->
     (first + S k = n \/ k = limit \/ ~ same first (first + S k)) -> Q k) -> wp (run_length joins n limit first) Q.
Proof.
  intros Hf HQ. unfold run_length. apply wp_bind.
  apply wp_while with (I := fun st : nat * bool => let '(k, stop) := st in k <= limit /\ first + k < n /\
      (forall v, first <= v <= first + k -> same first v) /\ (stop = true -> ~ same first (first + S k)))
    (m := fun st : nat * bool => if snd st then 0 else n - fst st).
  - splits; [lia|lia| |discriminate]. intros v Hv. replace v with first by lia. apply Hrefl.
  - simpl. lia.
  - intros (k & stop) (I1 & I2 & I3 & I4). apply wp_ret.
    destruct stop; simpl.
    + apply wp_ret. apply HQ; auto.
    + destruct (Nat.ltb_spec (first + S k) n) as [L1|L1]; simpl; [|apply wp_ret; apply HQ; auto; left; lia].
      destruct (Nat.ltb_spec k limit) as [L2|L2]; [|apply wp_ret; apply HQ; auto; right; left; lia].
      apply wp_bind. apply Hj; [lia|auto|]. intros r Hr. apply wp_ret. destruct r; simpl.
      * splits; auto; try lia; try discriminate. intros v Hv. destruct (Nat.eq_dec v (first + S k)) as [->|]; [apply Hr; auto|apply I3; lia].
      * splits; auto; try lia. intros _ H. apply Hr in H. discriminate.
Qed.
End Run.

Lemma max_runs_snoc n w (same : nat -> nat -> Prop) c e : e <= n ->
  (forall s, S s < length c -> c.[s] < c.[S s] <= c.[s] + w /\ (forall v, c.[s] <= v < c.[S s] -> same c.[s] v) /\
     (c.[S s] = n \/ c.[S s] = c.[s] + w \/ ~ same c.[s] c.[S s])) ->
  0 < length c -> c.[length c - 1] < e <= c.[length c - 1] + w ->
  (forall v, c.[length c - 1] <= v < e -> same c.[length c - 1] v) ->
  (e = n \/ e = c.[length c - 1] + w \/ ~ same c.[length c - 1] e) ->
  forall s, S s < length (c ++ [e]) -> (c ++ [e]).[s] < (c ++ [e]).[S s] <= (c ++ [e]).[s] + w /\
     (forall v, (c ++ [e]).[s] <= v < (c ++ [e]).[S s] -> same (c ++ [e]).[s] v) /\
     ((c ++ [e]).[S s] = n \/ (c ++ [e]).[S s] = (c ++ [e]).[s] + w \/ ~ same (c ++ [e]).[s] (c ++ [e]).[S s]).
Proof.
  intros He H Hl H1 H2 H3 s Hs. rewrite app_length in Hs. simpl in Hs.
  destruct (Nat.eq_dec (S s) (length c)) as [E|E].
  - rewrite (aget_app1 c [e] s) by lia. rewrite E, aget_app_last. replace s with (length c - 1) by lia. auto.
  - rewrite !aget_app1 by lia. apply H. lia.
Qed.

(** the lower triangular loop of class BCSCMatrix *)
Lemma bcsc_lower_wp n Ap Ai limit (Q : list nat -> Prop) : wf_csc n Ap Ai ->
  (forall c, max_runs n (S (if limit =? 0 then n else limit)) (same_below Ap Ai) c -> Q c) -> wp (bcsc_supernodes_lower n Ap Ai limit) Q.
Proof.
  intros W HQ. unfold bcsc_supernodes_lower. set (lim := if limit =? 0 then n else limit) in *. apply wp_bind.
  apply wp_while with (I := fun st : list nat * nat => let '(nodes, i) := st in i <= n /\ length nodes <= i /\
      (nodes ++ [i]).[0] = 0 /\
      forall s, S s < length (nodes ++ [i]) -> (nodes ++ [i]).[s] < (nodes ++ [i]).[S s] <= (nodes ++ [i]).[s] + S lim /\
        (forall v, (nodes ++ [i]).[s] <= v < (nodes ++ [i]).[S s] -> same_below Ap Ai (nodes ++ [i]).[s] v) /\
        ((nodes ++ [i]).[S s] = n \/ (nodes ++ [i]).[S s] = (nodes ++ [i]).[s] + S lim \/ ~ same_below Ap Ai (nodes ++ [i]).[s] (nodes ++ [i]).[S s]))
    (m := fun st : list nat * nat => n - snd st).
  - simpl. splits; auto; try lia.
  - simpl. lia.
  - intros (nodes & i) (I1 & I2 & I3 & I4). apply wp_ret. simpl. destruct (Nat.ltb_spec i n) as [L|L].
    + apply wp_bind. destruct (Nat.ltb_spec (length nodes) n) as [L'|L']; [|lia]. apply wp_ret. apply wp_bind.
      apply run_length_wp with (same := same_below Ap Ai); [apply same_below_refl| |auto|].
      * intros first last Q' F1 F2 HQ'. apply col_joins_wp with (n := n); auto. discriminate.
      * intros k K1 K2 K3 K4. apply wp_ret. simpl. rewrite app_length. simpl. splits; try lia.
        -- rewrite aget_app1 by (rewrite app_length; simpl; lia). auto.
        -- intros s Hs. apply max_runs_snoc; auto; try lia; rewrite ?app_length; simpl; try lia;
             replace (length nodes + 1 - 1) with (length nodes) by lia; rewrite ?aget_app_last; try lia.
           ++ intros v Hv. apply K3. lia.
           ++ replace (S (i + k)) with (i + S k) by lia. destruct K4 as [K4|[K4|K4]]; auto; lia.
    + apply wp_ret. apply HQ. replace i with n in * by lia. unfold max_runs. rewrite app_length in *. simpl in *. splits; auto; try lia.
      replace (length nodes + 1 - 1) with (length nodes) by lia. apply aget_app_last.
Qed.

(** * Class SuperNodal *)

Section SupRuns.
Variables (n : nat) (joins : nat -> nat -> res bool) (same : nat -> nat -> Prop) (off : nat -> nat -> res Z) (offv : nat -> nat -> Z) (w : nat).
Hypothesis Hrefl : forall u, same u u.
Hypothesis Hj : forall first last (Q : bool -> Prop), first <= last -> last < n -> (forall r : bool, (r = true <-> same first last) -> Q r) -> wp (joins first last) Q.
Hypothesis Hw : 0 < n -> 0 < w.
Hypothesis Hoff : forall first k (Q : Z -> Prop), first + k < n -> (forall v, first <= v <= first + k -> same first v) -> Q (offv first (S k)) -> wp (off first (S k)) Q.

Lemma sup_runs_wp (Q : list nat * list Z -> Prop) :
  (forall c o, max_runs n w same c -> o = map (fun s => offv c.[s] (c.[S s] - c.[s])) (seq 0 (length c - 1)) -> Q (c, o)) ->
  wp (sup_runs joins off n w) Q.
Proof.
  intros HQ. unfold sup_runs. apply wp_bind.
  apply wp_while with (I := fun st : list nat * list Z * nat => let '(c, o, i) := st in i <= n /\ 0 < length c /\ c.[0] = 0 /\ c.[length c - 1] = i /\
      o = map (fun s => offv c.[s] (c.[S s] - c.[s])) (seq 0 (length c - 1)) /\
      forall s, S s < length c -> c.[s] < c.[S s] <= c.[s] + w /\ (forall v, c.[s] <= v < c.[S s] -> same c.[s] v) /\
     (c.[S s] = n \/ c.[S s] = c.[s] + w \/ ~ same c.[s] c.[S s]))
    (m := fun st : list nat * list Z * nat => n - snd st).
  - simpl. splits; auto; try lia.
  - simpl. lia.
  - intros ((c & o) & i) (I1 & I2 & I3 & I4 & I5 & I6). apply wp_ret. simpl. destruct (Nat.ltb_spec i n) as [L|L].
    + apply wp_bind. apply run_length_wp with (same := same); auto. intros k K1 K2 K3 K4. specialize (Hw ltac:(lia)).
      apply wp_bind. apply Hoff; auto. apply wp_ret.
      rewrite app_length. simpl. splits; try lia.
      * rewrite aget_app1 by lia. auto.
      * replace (length c + 1 - 1) with (length c) by lia. now rewrite aget_app_last.
      * replace (length c + 1 - 1) with (length c) by lia. replace (length c) with (S (length c - 1)) at 1 by lia.
        rewrite seq_S, map_app, I5. simpl. f_equal.
        -- apply map_ext_in. intros s Hs. apply in_seq in Hs. now rewrite !aget_app1 by lia.
        -- rewrite aget_app1 by lia. replace (S (length c - 1)) with (length c) by lia. rewrite aget_app_last, I4. repeat f_equal. lia.
      * intros s Hs. apply max_runs_snoc; auto; try lia; rewrite ?I4; try lia.
        -- intros v Hv. apply K3. lia.
        -- destruct K4 as [K4|[K4|K4]]; auto; lia.
        -- rewrite app_length. simpl. lia.
    + apply wp_ret. apply wp_bind. apply wp_back; [auto|]. rewrite I4. destruct (Nat.eqb_spec i n) as [E|E]; [|lia]. apply wp_ret. apply HQ; auto.
      unfold max_runs. splits; auto. lia.
Qed.
End SupRuns.

Lemma runs_in n w same c v : max_runs n w same c -> v < n -> exists s, S s < length c /\ c.[s] <= v < c.[S s].
Proof.
  intros (H1 & H2 & H3 & H4) Hv. destruct (bucket_exists (aget c) (length c - 1) v) as (s & S1 & S2).
  - lia.
  - lia.
  - exists s. split; [lia|auto].
Qed.

Lemma runs_mono n w same c a b : max_runs n w same c -> a <= b -> b < length c -> c.[a] <= c.[b].
Proof.
  intros (H1 & H2 & H3 & H4) Hab Hb. apply (mono_le (aget c) (length c - 1)); auto; [|lia]. intros i Hi. destruct (H4 i) as (H & _); lia.
Qed.

Lemma node_to_sup_wp n w same c (Q : list nat -> Prop) : max_runs n w same c ->
  (forall m, length m = n -> (forall s v, S s < length c -> c.[s] <= v < c.[S s] -> m.[v] = s) -> Q m) -> wp (node_to_sup n c) Q.
Proof.
  intros R HQ. pose proof R as (H1 & H2 & H3 & H4). unfold node_to_sup.
  apply wp_for with (I := fun i m => length m = n /\ forall s v, s < i -> c.[s] <= v < c.[S s] -> m.[v] = s); [lia| | |].
  - split; [apply repeat_length|]. intros; lia.
  - intros i m Hi (M1 & M2). do 2 (apply wp_bind, wp_rd; [lia|]).
    assert (B : c.[S i] <= n) by (rewrite <- H3; eapply runs_mono; eauto; lia). destruct (H4 i ltac:(lia)) as (B1 & _).
    apply wp_for with (I := fun u m => length m = n /\ (forall s v, s < i -> c.[s] <= v < c.[S s] -> m.[v] = s) /\ forall v, c.[i] <= v < u -> m.[v] = i); [lia| | |].
    + splits; auto. intros; lia.
    + intros u m' Hu (N1 & N2 & N3). apply wp_wr; [lia|]. rewrite upd_length. splits; auto.
      * intros s v Hs Hv. assert (c.[S s] <= c.[i]) by (eapply runs_mono; eauto; lia). rewrite aget_upd_ne by lia. auto.
      * intros v Hv. rewrite aget_upd by lia. destruct (Nat.eqb_spec v u); auto. apply N3. lia.
    + intros m' (N1 & N2 & N3). split; auto. intros s v Hs Hv. destruct (Nat.eq_dec s i) as [->|]; auto. apply N2; auto. lia.
  - intros m (M1 & M2). apply HQ; auto. intros s v Hs. apply M2. lia.
Qed.

(** * Upper triangular matrices *)

Lemma same_entries_back_wp Li a b k (Q : bool -> Prop) : k <= a -> k <= b -> a <= length Li -> b <= length Li ->
  (forall r, (r = true <-> slice Li (a - k) a = slice Li (b - k) b) -> Q r) -> wp (same_entries_back Li a b k) Q.
Proof.
  intros Ka Kb Ha Hb HQ.
  assert (X : forall r : bool, (r = true <-> forall i, i < k -> Li.[a - S i] = Li.[b - S i]) -> Q r).
  { intros r Hr. apply HQ. rewrite Hr. split; intros H.
    - apply list_ext; [rewrite !slice_length; lia|]. intros i Hi. rewrite slice_length in Hi by lia.
      rewrite !aget_slice by lia. specialize (H (k - S i) ltac:(lia)).
      replace (a - k + i) with (a - S (k - S i)) by lia. replace (b - k + i) with (b - S (k - S i)) by lia. auto.
    - intros i Hi. assert (E : (slice Li (a - k) a).[k - S i] = (slice Li (b - k) b).[k - S i]) by now rewrite H.
      rewrite !aget_slice in E by lia. replace (a - S i) with (a - k + (k - S i)) by lia. replace (b - S i) with (b - k + (k - S i)) by lia. exact E. }
  unfold same_entries_back.
  apply wp_forb with (I := fun j (r : bool) => r = true /\ forall i, i < j -> Li.[a - S i] = Li.[b - S i]); [lia| | |].
  - split; auto. intros; lia.
  - intros j r Hj (-> & H1). destruct (Nat.ltb_spec a (S j)) as [L|L]; [lia|]. destruct (Nat.ltb_spec b (S j)) as [L'|L']; [lia|]. simpl orb. cbv iota.
    apply wp_bind, wp_rd; [lia|]. apply wp_bind, wp_rd; [lia|]. apply wp_ret.
    destruct (Nat.eqb_spec Li.[a - S j] Li.[b - S j]) as [E|E].
    + split; auto. intros i Hi. destruct (Nat.eq_dec i j) as [->|]; auto. apply H1. lia.
    + apply X. split; [discriminate|]. intros H. exfalso. apply E. apply H. lia.
  - intros r (-> & H1). apply X. split; auto.
Qed.

Lemma col_joins_back_wp n Lp Li pre cur (Q : bool -> Prop) : wf_csc n Lp Li -> cur <= pre -> pre < n ->
  (forall r, (r = true <-> same_above Lp Li pre cur) -> Q r) -> wp (col_joins_back Lp Li pre cur) Q.
Proof.
  intros W Hf Hl HQ. pose proof W as (W1 & _). destruct (ptr_le n Lp Li W pre Hl) as (F1 & F2 & F3). destruct (ptr_le n Lp Li W cur ltac:(lia)) as (L1 & L2 & L3).
  unfold col_joins_back. do 4 (apply wp_bind, wp_rd; [lia|]).
  destruct (Nat.eqb_spec (Lp.[S pre] - Lp.[pre]) (Lp.[S cur] - Lp.[cur] + (pre - cur))) as [E|E]; simpl.
  - apply same_entries_back_wp; try lia. intros r Hr. apply HQ. rewrite Hr. unfold same_above, column.
    replace (Lp.[S pre] - (pre - cur) - (Lp.[S cur] - Lp.[cur])) with Lp.[pre] by lia.
    replace (Lp.[S cur] - (Lp.[S cur] - Lp.[cur])) with Lp.[cur] by lia. split.
    + intros H. exists (slice Li (Lp.[S pre] - (pre - cur)) Lp.[S pre]). split; [rewrite slice_length; lia|]. rewrite <- H. apply slice_app; lia.
    + intros (t & Ht & Et). apply (f_equal (firstn (Lp.[S cur] - Lp.[cur]))) in Et. rewrite firstn_slice2 in Et by lia.
      replace (Lp.[S pre] - (pre - cur)) with (Lp.[pre] + (Lp.[S cur] - Lp.[cur])) by lia. rewrite Et.
      rewrite firstn_app. rewrite slice_length by lia. rewrite Nat.sub_diag, firstn_O, app_nil_r. rewrite firstn_all2; auto. rewrite slice_length; lia.
  - apply HQ. split; [discriminate|]. intros (t & H1 & H2). exfalso. apply E. apply (f_equal (@length nat)) in H2.
    rewrite app_length, !(column_length n) in H2 by (auto; lia). lia.
Qed.

Definition back_run (n w : nat) (same : nat -> nat -> Prop) (a b : Z) : Prop :=
  (0 <= a)%Z /\ (b < a <= b + Z.of_nat w)%Z /\ (forall v, (b < Z.of_nat v <= a)%Z -> same (Z.to_nat a) v) /\
  (b = (-1)%Z \/ (a = b + Z.of_nat w)%Z \/ ~ same (Z.to_nat a) (Z.to_nat b)).

Lemma bcsc_upper_wp n Ap Ai limit (Q : list Z -> Prop) : wf_csc n Ap Ai ->
  (forall c, max_runs_back n (S (if limit =? 0 then n else limit)) (same_above Ap Ai) c -> Q c) -> wp (bcsc_supernodes_upper n Ap Ai limit) Q.
Proof.
  intros W HQ. unfold bcsc_supernodes_upper. set (lim := if limit =? 0 then n else limit) in *. apply wp_bind.
  set (e := fun i1 => (Z.of_nat i1 - 1)%Z).
  apply wp_while with (I := fun st : list Z * nat => let '(nodes, i1) := st in i1 <= n /\ length nodes + i1 <= n /\
      (nodes ++ [e i1]).[0] = e n /\
      forall s, S s < length (nodes ++ [e i1]) -> back_run n (S lim) (same_above Ap Ai) (nodes ++ [e i1]).[s] (nodes ++ [e i1]).[S s])
    (m := fun st : list Z * nat => snd st).
  - simpl. splits; auto; try lia.
  - simpl. lia.
  - intros (nodes & i1) (I1 & I2 & I3 & I4). apply wp_ret. unfold snd. destruct (Nat.ltb_spec 0 i1) as [L|L].
    + apply wp_bind. destruct (Nat.ltb_spec (length nodes) n) as [L'|L']; [|lia]. apply wp_ret. apply wp_bind.
      set (i := i1 - 1).
      apply wp_while with (I := fun st : nat * bool => let '(k, stop) := st in k <= lim /\ k <= i /\
          (forall v, i - k <= v <= i -> same_above Ap Ai i v) /\ (stop = true -> S k <= i /\ ~ same_above Ap Ai i (i - S k)))
        (m := fun st : nat * bool => if snd st then 0 else n - fst st).
      * splits; try lia; try discriminate. intros v Hv. replace v with i by lia. apply same_above_refl.
      * simpl. lia.
      * intros (k & stop) (K1 & K2 & K3 & K4). apply wp_ret.
        assert (Fin : (S k <= i -> k = lim \/ ~ same_above Ap Ai i (i - S k)) ->
          wp (Ok (nodes ++ [Z.of_nat i], i - k)) (fun s' => let '(nodes, i1) := s' in (i1 <= n /\ length nodes + i1 <= n /\
            (nodes ++ [e i1]).[0] = e n /\
            forall s, S s < length (nodes ++ [e i1]) -> back_run n (S lim) (same_above Ap Ai) (nodes ++ [e i1]).[s] (nodes ++ [e i1]).[S s]) /\ i1 < S i)).
        { intros F. apply wp_ret. replace (Z.of_nat i) with (e i1) by (unfold e; lia). rewrite app_length. simpl. splits; try lia.
          - rewrite aget_app1 by (rewrite app_length; simpl; lia). auto.
          - intros s Hs. rewrite !app_length in Hs. simpl in Hs. destruct (Nat.eq_dec s (length nodes)) as [->|].
            + rewrite (aget_app1 _ [e (i - k)]) by (rewrite app_length; simpl; lia). rewrite aget_app_last.
              replace (S (length nodes)) with (length (nodes ++ [e i1])) by (rewrite app_length; simpl; lia). rewrite aget_app_last.
              unfold back_run, e. replace (Z.to_nat (Z.of_nat i1 - 1)) with i by lia. splits; try lia.
              * intros v Hv. apply K3. lia.
              * destruct (le_lt_dec (S k) i) as [G|G]; [|left; lia]. destruct (F G) as [->|F']; [right; left; lia|].
                right. right. replace (Z.to_nat (Z.of_nat (i - k) - 1)) with (i - S k) by lia. auto.
            + rewrite !(aget_app1 _ [e (i - k)]) by (rewrite app_length; simpl; lia). apply I4. rewrite app_length. simpl. lia. }
        destruct stop; cbn [negb andb]; cbv beta iota.
        { eapply wp_mono; [apply Fin; intros; right; apply K4; auto|]. intros (nodes' & i1') X. split; [apply X|]. lia. }
        destruct (Nat.leb_spec (S k) i) as [L1|L1]; cbn [negb andb].
        2:{ eapply wp_mono; [apply Fin; intros; lia|]. intros (nodes' & i1') X. split; [apply X|]. lia. }
        destruct (Nat.ltb_spec k lim) as [L2|L2].
        2:{ eapply wp_mono; [apply Fin; intros; left; lia|]. intros (nodes' & i1') X. split; [apply X|]. lia. }
        apply wp_bind. apply (col_joins_back_wp n); auto; try lia. intros r Hr. apply wp_ret. destruct r; simpl.
        -- splits; try lia; try discriminate. intros v Hv. destruct (Nat.eq_dec v (i - S k)) as [->|]; [apply Hr; auto|apply K3; lia].
        -- splits; auto; try lia. intros _. split; [lia|]. intros H. apply Hr in H. discriminate.
    + apply wp_ret. apply HQ. replace i1 with 0 in * by lia. unfold max_runs_back. change (e 0) with (-1)%Z in *.
      splits; auto; rewrite ?app_length; simpl; try lia.
      replace (length nodes + 1 - 1) with (length nodes) by lia. apply aget_app_last.
Qed.
