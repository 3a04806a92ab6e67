(** Lemmas for merge_graph and merge_DAGs_with_partial_order (M_Multi.v). *)
From Verif Require Import Base Lib Spec SpecMulti L_Util L_LBC4 L_LBC5 M_Multi L_Multi L_Multi2.
From Coq Require Import ZifyBool ZifyNat.

(** [slice] of an array that holds the columns [cols] *)
Lemma rep_slice cols p i c : rep cols p i -> length (concat cols) <= length i -> c < length cols -> slice i p.[c] p.[S c] = cols.[c].
Proof.
  intros [R1 R2] HL Hc. rewrite (R1 c), (R1 (S c)) by lia. rewrite concat_firstn_S by auto. rewrite app_length.
  set (b := length (concat (firstn c cols))).
  assert (E2 : concat cols = (concat (firstn c cols) ++ cols.[c]) ++ concat (skipn (S c) cols)).
  { rewrite <- concat_firstn_S by auto. now rewrite <- concat_app, firstn_skipn. }
  assert (HB : b + length cols.[c] <= length (concat cols)) by (rewrite E2, !app_length; fold b; lia).
  apply list_ext.
  - rewrite slice_length by lia. lia.
  - intros k Hk. rewrite slice_length in Hk by lia. rewrite aget_slice by lia. rewrite R2 by lia. rewrite E2.
    rewrite aget_app1 by (rewrite app_length; fold b; lia). rewrite aget_app2 by (fold b; lia). fold b. f_equal. lia.
Qed.

Lemma rep_snoc cols p i c pv x : rep cols p i -> length cols = c -> S c < length p -> length (concat cols) + length x <= length i ->
  pv = length (concat cols) + length x -> forall i', length i' = length i ->
  (forall k, k < length (concat cols) -> i'.[k] = i.[k]) -> (forall k, k < length x -> i'.[length (concat cols) + k] = x.[k]) ->
  rep (cols ++ [x]) (upd p (S c) pv) i'.
Proof.
  intros [R1 R2] Hc Hp HI -> i' Hi' A B. split.
  - intros k Hk. rewrite app_length in Hk. simpl in Hk. rewrite aget_upd by lia. destruct (Nat.eqb_spec k (S c)) as [->|Hne].
    + rewrite firstn_all2 by (rewrite app_length; simpl; lia). now rewrite concat_snoc, app_length.
    + rewrite firstn_app. replace (k - length cols) with 0 by lia. rewrite app_nil_r. apply R1. lia.
  - intros k Hk. rewrite concat_snoc in *. rewrite app_length in Hk. destruct (le_lt_dec (length (concat cols)) k) as [L|L].
    + rewrite aget_app2 by lia. rewrite <- B by lia. f_equal. lia.
    + rewrite aget_app1 by lia. rewrite A by auto. auto.
Qed.

Definition G_ok (n : nat) (G : list nat * list nat) : Prop := wf_csc n (fst G) (snd G).

(** column [j] of graph [G], shifted *)
Definition shifted (off : nat) (G : list nat * list nat) (j : nat) : list nat :=
  map (fun x => x + off) (slice (snd G) (fst G).[j] (fst G).[S j]).

Lemma shifted_length n off G j : G_ok n G -> j < n -> length (shifted off G j) = (fst G).[S j] - (fst G).[j].
Proof.
  intros (H1 & H2 & H3 & H4 & H5) Hj. unfold shifted. rewrite map_length.
  pose proof (mono_le (aget (fst G)) n H3 (S j) n ltac:(lia) ltac:(lia)). pose proof (H3 j Hj). apply slice_length; [auto|]. unfold aget in *. lia.
Qed.

Lemma merge_columns_wp n off G more ex cols nGp nGi (Q : list nat * list nat * nat * nat -> Prop) :
  G_ok n G -> (forall j, j < n -> wp (more j) (fun e => e = ex j)) ->
  rep cols nGp nGi -> length cols + n < length nGp ->
  length (concat (cols ++ map (fun j => shifted off G j ++ ex j) (seq 0 n))) <= length nGi ->
  (forall nGp' nGi', let cols' := cols ++ map (fun j => shifted off G j ++ ex j) (seq 0 n) in
     rep cols' nGp' nGi' -> length nGp' = length nGp -> length nGi' = length nGi ->
     Q (nGp', nGi', S (length cols'), length (concat cols'))) ->
  wp (merge_columns n off (fst G) (snd G) more (nGp, nGi, S (length cols), length (concat cols))) Q.
Proof.
  intros HG Hex HR Hp HL HQ. unfold merge_columns.
  set (f := fun j => shifted off G j ++ ex j) in *.
  apply (wp_for (fun j '(p, i, pc, ic) => let cols' := cols ++ map f (seq 0 j) in
    rep cols' p i /\ length p = length nGp /\ length i = length nGi /\ pc = S (length cols') /\ ic = length (concat cols'))); [lia| | |].
  - simpl. rewrite app_nil_r. auto.
  - intros j [[[p i] pc] ic] Hj (I1 & I2 & I3 & -> & ->). set (cols' := cols ++ map f (seq 0 j)) in *.
    assert (Hc' : length cols' = length cols + j) by (unfold cols'; rewrite app_length, map_length, seq_length; auto).
    pose proof HG as (W1 & W2 & W3 & W4 & W5).
    wq; [lia|]. wq; [lia|]. apply wp_bind. eapply wp_mono; [apply Hex; lia|]. intros e ->.
    wq; [lia|]. wq; [lia|].
    assert (Hm : (fst G).[j] <= (fst G).[S j]) by (apply W3; lia).
    pose proof (mono_le (aget (fst G)) n W3 (S j) n ltac:(lia) ltac:(lia)) as Hm2.
    assert (Esn : cols ++ map f (seq 0 (S j)) = cols' ++ [f j]).
    { unfold cols'. rewrite seq_S, map_app, app_assoc. reflexivity. }
    assert (HLj : length (concat cols') + length (f j) <= length i).
    { rewrite I3. apply Nat.le_trans with (2 := HL). replace n with (S j + (n - S j)) by lia. rewrite seq_app, map_app, app_assoc, Esn.
      rewrite !concat_app, !app_length. simpl. rewrite app_nil_r. lia. }
    assert (Hfl : length (f j) = ((fst G).[S j] - (fst G).[j]) + length (ex j)).
    { unfold f. rewrite app_length, (shifted_length n) by (auto; lia). auto. }
    set (b := length (concat cols')) in *.
    apply wp_bind. apply (wp_for (fun q '(i1, ic1) => length i1 = length i /\ ic1 = b + (q - (fst G).[j]) /\
       (forall k, k < b -> i1.[k] = i.[k]) /\ (forall k, k < q - (fst G).[j] -> i1.[b + k] = (f j).[k]))); [lia| | |].
    + split; [auto|]. split; [lia|]. split; [auto|]. intros k Hk. lia.
    + intros q [i1 ic1] Hq (J1 & -> & J2 & J3). wq; [lia|]. wq; [lia|]. apply wp_ret. rewrite upd_length. split; [auto|]. split; [lia|].
      split.
      * intros k Hk. rewrite aget_upd_ne by lia. auto.
      * intros k Hk. rewrite aget_upd by lia. destruct (Nat.eqb_spec (b + k) (b + (q - (fst G).[j]))) as [E|E].
        -- unfold f. rewrite aget_app1 by (rewrite (shifted_length n) by (auto; lia); lia). unfold shifted.
           rewrite aget_map by (rewrite slice_length by lia; lia). rewrite aget_slice by lia. f_equal. f_equal. lia.
        -- apply J3. lia.
    + intros [i1 ic1] (J1 & -> & J2 & J3). apply wp_bind.
      apply (wp_foreach (fun pre '(i2, ic2) => length i2 = length i /\ ic2 = b + ((fst G).[S j] - (fst G).[j]) + length pre /\
        (forall k, k < b -> i2.[k] = i.[k]) /\ (forall k, k < ((fst G).[S j] - (fst G).[j]) + length pre -> i2.[b + k] = (f j).[k]))).
      * split; [auto|]. split; [simpl; lia|]. split; [auto|]. intros k Hk. simpl in Hk. apply J3. lia.
      * intros pre x post [i2 ic2] E (K1 & -> & K2 & K3).
        assert (Hpre : length pre < length (ex j)) by (rewrite E, app_length; simpl; lia).
        wq; [lia|]. apply wp_ret. rewrite upd_length, app_length. simpl. split; [auto|]. split; [lia|]. split.
        -- intros k Hk. rewrite aget_upd_ne by lia. auto.
        -- intros k Hk. rewrite aget_upd by lia. destruct (Nat.eqb_spec (b + k) (b + ((fst G).[S j] - (fst G).[j]) + length pre)) as [Ek|Ek].
           ++ unfold f. rewrite aget_app2 by (rewrite (shifted_length n) by (auto; lia); lia). rewrite (shifted_length n) by (auto; lia).
              replace (k - ((fst G).[S j] - (fst G).[j])) with (length pre) by lia. rewrite E.
              rewrite aget_app2 by lia. now rewrite Nat.sub_diag, aget_cons_0.
           ++ apply K3. lia.
      * intros [i2 ic2] (K1 & -> & K2 & K3). apply wp_ret. cbv zeta. rewrite Esn.
        split.
        { apply (rep_snoc cols' p i (length cols')); auto; try lia.
          - rewrite Hfl. replace (S (length cols') - 1) with (length cols') by lia. destruct I1 as [I1 _]. rewrite I1 by lia. rewrite firstn_all.
            fold b. lia.
          - intros k Hk. apply K3. lia. }
        split; [now rewrite upd_length|]. split; [lia|]. split; [rewrite app_length; simpl; lia|].
        rewrite concat_snoc, app_length. fold b. lia.
  - intros [[[p i] pc] ic] (I1 & I2 & I3 & -> & ->). apply HQ; auto.
Qed.

(** columns of the merged graph: graph [c / n], column [c mod n] *)
Definition mcol (n : nat) (Gs : list (list nat * list nat)) (ex : nat -> nat -> list nat) (c : nat) : list nat :=
  shifted (c / n * n) Gs.[c / n] (c mod n) ++ ex (c / n) (c mod n).
Definition mcols n Gs ex m := map (mcol n Gs ex) (seq 0 m).

Lemma mcol_at n Gs ex i j : j < n -> mcol n Gs ex (i * n + j) = shifted (i * n) Gs.[i] j ++ ex i j.
Proof.
  intros H. unfold mcol. replace (i * n + j) with (j + n * i) by lia. rewrite copy_div by auto.
  replace ((j + n * i) mod n) with j; [auto|]. rewrite (Nat.mul_comm n i), Nat.mod_add by lia. rewrite Nat.mod_small; auto.
Qed.
Lemma mcols_S n Gs ex i : mcols n Gs ex (S i * n) = mcols n Gs ex (i * n) ++ map (fun j => shifted (i * n) Gs.[i] j ++ ex i j) (seq 0 n).
Proof.
  unfold mcols. replace (S i * n) with (i * n + n) by lia. rewrite seq_app, map_app. f_equal. simpl.
  apply list_ext; [now rewrite !map_length, !seq_length|]. intros k Hk. rewrite map_length, seq_length in Hk.
  rewrite !aget_map by (rewrite seq_length; auto). rewrite !aget_seq by auto. apply mcol_at. auto.
Qed.
Lemma mcols_length n Gs ex m : length (mcols n Gs ex m) = m.
Proof. unfold mcols. now rewrite map_length, seq_length. Qed.

(** number of entries *)
Definition nnz_of (n : nat) (Gs : list (list nat * list nat)) (m : nat) : nat := sum_r 0 m (fun i => (fst Gs.[i]).[n]).

Lemma sum_diff (p : nat -> nat) (e : nat -> list nat) m : (forall i, i < m -> p i <= p (S i)) ->
  forall (g : nat -> list nat), (forall j, j < m -> length (g j) = (p (S j) - p j) + length (e j)) ->
  length (concat (map g (seq 0 m))) + p 0 = p m + sum_r 0 m (fun j => length (e j)).
Proof.
  intros HM g Hg. induction m as [|m IH]; [simpl; rewrite sum_r_nil; lia|].
  rewrite seq_S, map_app, concat_app, app_length. simpl. rewrite app_nil_r, sum_r_S by lia. rewrite (Hg m) by lia.
  specialize (IH ltac:(intros; apply HM; lia) ltac:(intros; apply Hg; lia)). specialize (HM m ltac:(lia)). lia.
Qed.

Lemma mcols_nnz n Gs ex m : (forall i, i < m -> G_ok n Gs.[i]) ->
  length (concat (mcols n Gs ex (m * n))) = nnz_of n Gs m + sum_r 0 m (fun i => sum_r 0 n (fun j => length (ex i j))).
Proof.
  intros HG. induction m as [|m IH]; [unfold mcols, nnz_of; simpl; now rewrite !sum_r_nil by lia|].
  rewrite mcols_S, concat_app, app_length, IH by (intros; apply HG; lia). unfold nnz_of. rewrite !sum_r_S by lia.
  pose proof (HG m ltac:(lia)) as HGm. pose proof HGm as (W1 & W2 & W3 & W4 & W5).
  pose proof (sum_diff (aget (fst Gs.[m])) (ex m) n W3 (fun j => shifted (m * n) Gs.[m] j ++ ex m j)) as E. rewrite W2 in E.
  rewrite Nat.add_0_r in E. rewrite E; [lia|]. intros j Hj. rewrite app_length, (shifted_length n); auto.
Qed.

Lemma mcols_nnz_le n Gs ex m m' : (forall i, i < m -> G_ok n Gs.[i]) -> m' <= m ->
  length (concat (mcols n Gs ex (m' * n))) <= length (concat (mcols n Gs ex (m * n))).
Proof.
  intros HG Hm. unfold mcols. replace (m * n) with (m' * n + (m * n - m' * n)) by nia. rewrite seq_app, map_app, concat_app, app_length. lia.
Qed.

(** the loop over the graphs, common to both *)
Lemma merge_loop_wp n Gs K (more : nat -> nat -> res (list nat)) ex body nnz (Q : list nat * list nat -> Prop) :
  length Gs = S K -> (forall i, i < S K -> G_ok n Gs.[i]) ->
  (forall i j, i < K -> j < n -> wp (more i j) (fun e => e = ex i j)) ->
  (forall j, ex K j = []) ->
  (forall i st, i < K -> body i st = merge_columns n (i * n) (fst Gs.[i]) (snd Gs.[i]) (more i) st) ->
  length (concat (mcols n Gs ex (S K * n))) <= nnz ->
  (forall p i, rep (mcols n Gs ex (S K * n)) p i -> length p = S K * n + 1 -> length i = nnz -> Q (p, i)) ->
  wp (st <- for_ 0 K body (repeat 0 (S K * n + 1), repeat 0 nnz, 1, 0) ;;
      G <- rd Gs K ;;
      '(nGp, nGi, _, _) <- merge_columns n (K * n) (fst G) (snd G) (fun _ => Ok []) st ;; Ok (nGp, nGi)) Q.
Proof.
  intros HL HG Hmore HexK Hbody Hnnz HQ. apply wp_bind.
  apply (wp_for (fun i '(p, li, pc, ic) => rep (mcols n Gs ex (i * n)) p li /\ length p = S K * n + 1 /\ length li = nnz /\
    pc = S (length (mcols n Gs ex (i * n))) /\ ic = length (concat (mcols n Gs ex (i * n))))); [lia| | |].
  - unfold mcols. simpl. split; [|rewrite !repeat_length; auto]. split.
    + intros i Hi. simpl in Hi. replace i with 0 by lia. rewrite aget_repeat by lia. auto.
    + simpl. intros; lia.
  - intros i [[[p li] pc] ic] Hi (I1 & I2 & I3 & -> & ->). rewrite Hbody by lia.
    apply (merge_columns_wp n (i * n) Gs.[i] (more i) (ex i) (mcols n Gs ex (i * n))); auto.
    + apply HG. lia.
    + intros j Hj. apply Hmore; lia.
    + rewrite mcols_length, I2. nia.
    + rewrite <- mcols_S, I3. apply Nat.le_trans with (2 := Hnnz). apply mcols_nnz_le; [auto|lia].
    + intros p' li'. cbv zeta. rewrite <- mcols_S. intros A B C. split; [auto|]. split; [lia|]. split; [lia|]. auto.
  - intros [[[p li] pc] ic] (I1 & I2 & I3 & -> & ->). wq; [lia|]. apply wp_bind.
    apply (merge_columns_wp n (K * n) Gs.[K] (fun _ => Ok []) (ex K) (mcols n Gs ex (K * n))); auto.
    + intros j Hj. rewrite HexK. now apply wp_ret.
    + rewrite mcols_length, I2. simpl. lia.
    + rewrite <- mcols_S, I3. auto.
    + intros p' li'. cbv zeta. rewrite <- mcols_S. intros A B C. apply wp_ret. apply HQ; auto; lia.
Qed.

Lemma sum_nnz_wp n Gs (Q : nat -> Prop) : (forall i, i < length Gs -> G_ok n Gs.[i]) -> Q (nnz_of n Gs (length Gs)) ->
  wp (foreach Gs (fun G nnz => e <- rd (fst G) n ;; Ok (nnz + e)) 0) Q.
Proof.
  intros HG HQ. apply (wp_foreach (fun pre s => s = nnz_of n Gs (length pre))).
  - unfold nnz_of. now rewrite sum_r_nil.
  - intros pre G post s E ->. assert (Ei : Gs.[length pre] = G) by (rewrite E, aget_app2, Nat.sub_diag, aget_cons_0; auto).
    assert (Hi : length pre < length Gs) by (rewrite E, app_length; simpl; lia).
    pose proof (HG _ Hi) as (W & _). rewrite Ei in W. wq; [auto|]. apply wp_ret. rewrite app_length. simpl.
    rewrite Nat.add_1_r. unfold nnz_of. rewrite sum_r_S by lia. now rewrite Ei.
  - intros s ->. auto.
Qed.

Definition next_copy (n K i j : nat) : list nat := if S i <? K then [j + (i + 1) * n] else [].
Definition next_dep (n K : nat) (Ds : list (list nat * list nat)) (i j : nat) : list nat :=
  if S i <? K then shifted ((i + 1) * n) Ds.[i] j else [].

Lemma merge_graph_wp n Gs (Q : list nat * list nat -> Prop) : 0 < length Gs -> (forall i, i < length Gs -> G_ok n Gs.[i]) ->
  (forall p i, rep (mcols n Gs (next_copy n (length Gs)) (length Gs * n)) p i -> length p = length Gs * n + 1 ->
     length i = length (concat (mcols n Gs (next_copy n (length Gs)) (length Gs * n))) -> Q (p, i)) ->
  wp (merge_graph n Gs) Q.
Proof.
  intros HL HG HQ. unfold merge_graph. apply wp_bind. apply sum_nnz_wp; auto.
  destruct (length Gs) as [|K] eqn:EL; [lia|]. replace (S K - 1) with K by lia. cbn [Nat.eqb].
  set (ex := next_copy n (S K)) in *.
  assert (Hn : length (concat (mcols n Gs ex (S K * n))) = nnz_of n Gs (S K) + K * n).
  { rewrite mcols_nnz by auto. f_equal. rewrite sum_r_S by lia. rewrite (sum_r_all_zero 0 n (fun j => length (ex K j))).
    - rewrite Nat.add_0_r. rewrite (sum_r_ext 0 K _ (fun _ => n)); [rewrite sum_r_const; lia|]. intros i Hi.
      rewrite (sum_r_ext 0 n _ (fun _ => 1)); [rewrite sum_r_const; lia|]. intros j Hj. unfold ex, next_copy.
      replace (S i <? S K) with true by (symmetry; apply Nat.ltb_lt; lia). auto.
    - intros j Hj. unfold ex, next_copy. replace (S K <? S K) with false by (symmetry; apply Nat.ltb_ge; lia). auto. }
  apply (merge_loop_wp n Gs K (fun i j => Ok [j + (i + 1) * n]) ex); auto.
  - intros i j Hi Hj. apply wp_ret. unfold ex, next_copy. replace (S i <? S K) with true by (symmetry; apply Nat.ltb_lt; lia). auto.
  - intros j. unfold ex, next_copy. replace (S K <? S K) with false by (symmetry; apply Nat.ltb_ge; lia). auto.
  - intros i st Hi. rewrite rd_ok by lia. auto.
  - lia.
  - intros p i A B C. apply HQ; auto. lia.
Qed.

Lemma dep_column_wp n D off j : G_ok n D -> j < n -> wp (dep_column (fst D) (snd D) off j) (fun e => e = shifted off D j).
Proof.
  intros (W1 & W2 & W3 & W4 & W5) Hj. unfold dep_column. wq; [lia|]. wq; [lia|].
  pose proof (W3 j Hj) as Hm. pose proof (mono_le (aget (fst D)) n W3 (S j) n ltac:(lia) ltac:(lia)) as Hm2. cbn beta in Hm2.
  apply (wp_for (fun p l => l = map (fun x => x + off) (slice (snd D) (fst D).[j] p))); [auto| | |].
  - now rewrite slice_nil.
  - intros p l Hp ->. wq; [lia|]. apply wp_ret. rewrite (slice_app _ _ p (S p)) by lia. rewrite map_app. f_equal.
    apply list_ext; [rewrite map_length, slice_length by lia; cbn [length]; lia|]. intros k Hk. cbn [length] in Hk. replace k with 0 by lia.
    rewrite aget_map by (rewrite slice_length by lia; lia). rewrite aget_slice by lia. now rewrite Nat.add_0_r.
  - intros l ->. auto.
Qed.

Lemma merge_DAGs_wp n Gs Ds (Q : nat * (list nat * list nat) -> Prop) : 0 < length Gs -> (forall i, i < length Gs -> G_ok n Gs.[i]) ->
  length Gs - 1 <= length Ds -> (forall i, S i < length Gs -> G_ok n Ds.[i]) ->
  (forall p i, rep (mcols n Gs (next_dep n (length Gs) Ds) (length Gs * n)) p i -> length p = length Gs * n + 1 ->
     length i = length (concat (mcols n Gs (next_dep n (length Gs) Ds) (length Gs * n))) + (length Gs - 1) * n -> Q (length i, (p, i))) ->
  wp (merge_DAGs_with_partial_order n Gs Ds) Q.
Proof.
  intros HL HG HLD HD HQ. unfold merge_DAGs_with_partial_order. apply wp_bind. apply sum_nnz_wp; auto.
  destruct (length Gs) as [|K] eqn:EL; [lia|]. replace (S K - 1) with K in * by lia. cbn [Nat.eqb].
  apply wp_bind. apply (wp_for (fun i s => s = nnz_of n Gs (S K) + nnz_of n Ds i)); [lia| | |].
  { replace (nnz_of n Ds 0) with 0; [lia|]. unfold nnz_of. now rewrite sum_r_nil. }
  { intros i s Hi ->. pose proof (HD i ltac:(lia)) as (W & _). wq; [lia|]. wq; [auto|]. apply wp_ret. unfold nnz_of. rewrite (sum_r_S 0 i) by lia. lia. }
  intros s ->.
  set (ex := next_dep n (S K) Ds) in *.
  assert (Hn : length (concat (mcols n Gs ex (S K * n))) = nnz_of n Gs (S K) + nnz_of n Ds K).
  { rewrite mcols_nnz by auto. f_equal. rewrite sum_r_S by lia. rewrite (sum_r_all_zero 0 n (fun j => length (ex K j))).
    - rewrite Nat.add_0_r. unfold nnz_of. apply sum_r_ext. intros i Hi. pose proof (HD i ltac:(lia)) as HDi. pose proof HDi as (W1 & W2 & W3 & W4 & W5).
      pose proof (sum_diff (aget (fst Ds.[i])) (fun _ => []) n W3 (shifted ((i + 1) * n) Ds.[i])) as E. rewrite W2, Nat.add_0_r in E. cbn [length] in E.
      rewrite (sum_r_all_zero 0 n (fun _ => 0)), Nat.add_0_r in E by auto. rewrite <- E by (intros j Hj; rewrite (shifted_length n); auto; lia).
      clear E. assert (G : forall m, sum_r 0 m (fun j => length (ex i j)) = length (concat (map (shifted ((i + 1) * n) Ds.[i]) (seq 0 m)))).
      { induction m as [|m IH]; [now rewrite sum_r_nil|]. rewrite sum_r_S by lia. rewrite seq_S, map_app, concat_app, app_length, IH. simpl.
        rewrite app_nil_r. f_equal. unfold ex, next_dep. replace (S i <? S K) with true by (symmetry; apply Nat.ltb_lt; lia). auto. }
      apply G.
    - intros j Hj. unfold ex, next_dep. replace (S K <? S K) with false by (symmetry; apply Nat.ltb_ge; lia). auto. }
  apply wp_bind.
  set (X := for_ _ _ _ _).
  pose proof (merge_loop_wp n Gs K (fun i => dep_column (fst Ds.[i]) (snd Ds.[i]) ((i + 1) * n)) ex
     (fun i st => G <- rd Gs i ;; D <- rd Ds i ;; merge_columns n (i * n) (fst G) (snd G) (dep_column (fst D) (snd D) ((i + 1) * n)) st)
     (nnz_of n Gs (S K) + nnz_of n Ds K + K * n)
     (fun r => Q (nnz_of n Gs (S K) + nnz_of n Ds K + K * n, r)) EL HG) as P.
  assert (P' : wp (st <- X ;; G <- rd Gs K ;; '(nGp, nGi, _, _) <- merge_columns n (K * n) (fst G) (snd G) (fun _ => Ok []) st ;; Ok (nGp, nGi))
     (fun r => Q (nnz_of n Gs (S K) + nnz_of n Ds K + K * n, r))).
  { apply P.
    - intros i j Hi Hj. unfold ex, next_dep. replace (S i <? S K) with true by (symmetry; apply Nat.ltb_lt; lia).
      apply (dep_column_wp n); auto. apply HD. lia.
    - intros j. unfold ex, next_dep. replace (S K <? S K) with false by (symmetry; apply Nat.ltb_ge; lia). auto.
    - intros i st Hi. rewrite !rd_ok by lia. auto.
    - lia.
    - intros p i A B C. rewrite <- C. apply HQ; auto. lia. }
  clear P. destruct X as [st|e]; cbn [bind wp] in *; [|exact P'].
  destruct (rd Gs K) as [G|e]; cbn [bind wp] in *; [|exact P'].
  destruct (merge_columns n (K * n) (fst G) (snd G) (fun _ => Ok []) st) as [[[[a b] c] d]|e]; cbn [bind wp] in *; exact P'.
Qed.
