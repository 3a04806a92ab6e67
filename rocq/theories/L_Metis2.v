(** Proofs about the graph of a full matrix, the drivers of METIS and the spreading of the parts of a coarse graph. *)
From Coq Require Import ZifyBool ZifyNat.
From Verif Require Import Base Lib Lib2 Lib3 Spec SpecMat M_Mat L_Mat L_LBC5 L_Multi L_Multi2 L_Merge L_Util M_Metis L_Metis.

Lemma firstn_S_aget {A} `{Dflt A} (l : list A) j : j < length l -> firstn (S j) l = firstn j l ++ [l.[j]].
Proof.
  revert j. induction l as [|a l IH]; intros j Hj; [simpl in Hj; lia|]. destruct j as [|j]; [reflexivity|]. cbn [firstn app]. f_equal. apply IH. simpl in Hj. lia.
Qed.

(** what a compressed graph given by its lists of neighbours contains *)
Lemma rep_wf n cols p i : rep cols p i -> length cols = n -> length p = n + 1 -> length (concat cols) <= length i ->
  (forall u v, u < n -> In v cols.[u] -> v < n) -> wf_csc n p i.
Proof.
  intros R HL Hp Hi Hv. destruct R as [R1 R2].
  assert (E : p.[n] = length (concat cols)) by (rewrite R1 by lia; now rewrite <- HL, firstn_all).
  split; [lia|]. split; [rewrite R1 by lia; reflexivity|]. split; [|split].
  - intros u Hu. rewrite !R1 by lia. rewrite concat_firstn_S by lia. rewrite app_length. lia.
  - lia.
  - intros k Hk. rewrite R2 by lia. assert (Hin : In (concat cols).[k] (concat cols)) by (apply aget_In; lia).
    apply in_concat_aget in Hin. destruct Hin as (u & Hu & H). apply (Hv u); [lia|auto].
Qed.
Lemma rep_entry n cols p i u v : rep cols p i -> length cols = n -> length (concat cols) <= length i -> u < n ->
  (entry p i u v <-> In v cols.[u]).
Proof.
  intros R HL Hi Hu. rewrite <- (rep_slice cols p i u R Hi ltac:(lia)).
  assert (p.[S u] <= length i).
  { rewrite (proj1 R) by lia. rewrite <- (firstn_skipn (S u) cols) in Hi. rewrite concat_app, app_length in Hi. lia. }
  assert (p.[u] <= p.[S u]) by (rewrite !(proj1 R) by lia; rewrite concat_firstn_S by lia; rewrite app_length; lia).
  rewrite In_slice by auto. reflexivity.
Qed.

Section General.
Context {V : Type} {DV : Dflt V}.

Definition offrow (A : csc V) (u : nat) : list nat := filter (fun c => negb (u =? c)) (map fst (row_of (cn A) (col (cp A) (ci A) (cx A)) u)).

Lemma general_graph_wp (A : csc V) (Q : list nat * list nat -> Prop) : mat_ok A -> cm A = cn A -> 0 < cn A ->
  (forall p i, rep (map (offrow A) (seq 0 (cn A))) p i -> length p = cn A + 1 -> length i = cnnz A ->
     length (concat (map (offrow A) (seq 0 (cn A)))) <= cnnz A -> Q (p, i)) ->
  wp (general_graph A) Q.
Proof.
  intros HA Hsq Hn HQ. unfold general_graph. apply wp_bind. apply csc_to_csr_wp; auto; [lia|].
  intros B B1 B2 B3 B4 B5 B6 (BW & BN & _ & BR & _). destruct BW as (W1 & W2 & W3 & W4 & W5). rewrite Hsq in *. rewrite B2, B3.
  destruct HA as (_ & HA & _).
  assert (PM : forall a b, a <= b -> b <= cn A -> (cp B).[a] <= (cp B).[b]) by (intros; apply (mono_le (aget (cp B)) (cn A)); auto).
  set (rw u := map (aget (ci B)) (seq (cp B).[u] ((cp B).[S u] - (cp B).[u]))).
  assert (ER : forall u, u < cn A -> offrow A u = filter (fun c => negb (u =? c)) (rw u)).
  { intros u Hu. unfold offrow. rewrite <- BR by auto. unfold col, rw. now rewrite map_map. }
  wp1. apply wp_wr; [rewrite repeat_length; lia|]. apply wp_bind.
  apply wp_for with (I := fun u s => let '(p, i, cnt) := s in let cols := map (offrow A) (seq 0 u) in
    rep cols p i /\ length p = cn A + 1 /\ length i = cnnz A /\ cnt = length (concat cols) /\ length (concat cols) <= (cp B).[u]).
  - lia.
  - cbv zeta. rewrite upd_length, !repeat_length. split; [|simpl; repeat (split; [auto; lia|]); lia]. split; [|simpl; intros; lia].
    intros x Hx. simpl in Hx. replace x with 0 by lia. rewrite aget_upd_eq by (rewrite repeat_length; lia). auto.
  - intros u [[p i] cnt] Hu. cbv zeta. set (cols := map (offrow A) (seq 0 u)). assert (Lc : length cols = u) by (unfold cols; now rewrite map_length, seq_length).
    intros (R & L1 & L2 & -> & L3). pose proof (PM (S u) (cn A) ltac:(lia) ltac:(lia)).
    wp1. apply wp_rd; [lia|]. wp1. apply wp_rd; [lia|]. apply wp_bind.
    set (part m := filter (fun c => negb (u =? c)) (map (aget (ci B)) (seq (cp B).[u] (m - (cp B).[u])))).
    apply wp_for with (I := fun m s => let '(i', cnt, rc) := s in length i' = cnnz A /\ cnt = length (concat cols) + length (part m) /\ rc = length (part m) /\
      length (part m) <= m - (cp B).[u] /\ (forall k, k < length (concat cols) -> i'.[k] = i.[k]) /\ (forall k, k < length (part m) -> i'.[length (concat cols) + k] = (part m).[k])).
    + apply W3. lia.
    + unfold part. rewrite Nat.sub_diag. simpl. split; [auto|]. split; [lia|]. split; [auto|]. split; [lia|]. split; [auto|]. intros; lia.
    + intros m [[i' cnt] rc] Hm (I1 & -> & -> & I4 & I5 & I6). wp1. apply wp_rd; [lia|].
      assert (EP : part (S m) = part m ++ (if u =? (ci B).[m] then [] else [(ci B).[m]])).
      { unfold part. replace (S m - (cp B).[u]) with (S (m - (cp B).[u])) by lia. rewrite seq_S, map_app, filter_app. f_equal. simpl.
        replace ((cp B).[u] + (m - (cp B).[u])) with m by lia. destruct (u =? (ci B).[m]); reflexivity. }
      destruct (u =? (ci B).[m]) eqn:E.
      * apply wp_ret. rewrite EP, app_nil_r. split; [auto|]. split; [lia|]. split; [auto|]. split; [lia|]. auto.
      * wp1. apply wp_wr; [lia|]. apply wp_ret. rewrite EP, app_length, upd_length. cbn [length]. split; [auto|]. split; [lia|]. split; [lia|]. split; [lia|].
        split; [intros k Hk; rewrite aget_upd_ne by lia; auto|]. intros k Hk. rewrite aget_upd by lia.
        destruct (Nat.eqb_spec (length (concat cols) + k) (length (concat cols) + length (part m))) as [Ek|Ek].
        -- replace k with (length (part m)) by lia. now rewrite aget_app_last.
        -- rewrite aget_app1 by lia. apply I6. lia.
    + intros [[i' cnt] rc] (I1 & -> & -> & I4 & I5 & I6). assert (EP : part (cp B).[S u] = offrow A u) by (rewrite ER by lia; reflexivity). rewrite EP in *.
      wp1. apply wp_rd; [lia|]. wp1. apply wp_wr; [lia|]. apply wp_ret. cbv zeta. rewrite seq_S, map_app. cbn [map]. rewrite Nat.add_0_l. fold cols. rewrite concat_snoc, app_length, upd_length.
      pose proof (W3 u ltac:(lia)).
      split; [|repeat (split; [auto; lia|]); lia].
      apply (rep_snoc cols p i); auto; try lia. rewrite (proj1 R) by lia. f_equal. rewrite <- Lc at 1. now rewrite firstn_all.
  - intros [[p i] cnt]. cbv zeta. intros (R & L1 & L2 & L3 & L4). apply wp_ret. apply HQ; auto. lia.
Qed.

Lemma offrow_In (A : csc V) u v : In v (offrow A u) <-> u <> v /\ v < cn A /\ entry (cp A) (ci A) v u.
Proof.
  unfold offrow. rewrite filter_In, in_map_iff. split.
  - intros [([c x] & E & H) Hne]. simpl in E. subst c. unfold row_of in H. apply in_flat_map in H. destruct H as (c & Hc & H).
    apply in_seq in Hc. apply in_map_iff in H. destruct H as ([r y] & E & H). inversion E; subst. apply filter_In in H. destruct H as [H Er]. simpl in Er.
    unfold col in H. apply in_map_iff in H. destruct H as (k & Ek & Hk). apply in_seq in Hk. inversion Ek; subst. split; [lia|]. split; [lia|].
    exists k. split; [lia|]. lia.
  - intros (Hne & Hv & (k & Hk & Ek)). split; [|lia]. exists (v, (cx A).[k]). split; [auto|]. unfold row_of. apply in_flat_map. exists v. split; [apply in_seq; lia|].
    apply in_map_iff. exists (u, (cx A).[k]). split; [auto|]. apply filter_In. split; [|simpl; lia]. unfold col. apply in_map_iff. exists k. rewrite Ek. split; [auto|]. apply in_seq. lia.
Qed.

Lemma offrow_length (A : csc V) : mat_ok A -> cm A = cn A -> 0 < cn A -> length (concat (map (offrow A) (seq 0 (cn A)))) <= cnnz A.
Proof.
  intros H1 H2 H3. pose proof (general_graph_wp A (fun _ => length (concat (map (offrow A) (seq 0 (cn A)))) <= cnnz A) H1 H2 H3) as H.
  apply wp_ok in H; [|auto]. now destruct H as (? & _ & H).
Qed.

Lemma copy_out_wp {A} {DA : Dflt A} n (src dst : list A) (Q : list A -> Prop) : n <= length src -> length dst = n ->
  Q (firstn n src) -> wp (copy_out n src dst) Q.
Proof.
  intros Hs Hd HQ. unfold copy_out. apply wp_for with (I := fun i d => length d = n /\ forall x, x < i -> d.[x] = src.[x]).
  - lia.
  - split; [auto|intros; lia].
  - intros i d Hi [I1 I2]. wp1. apply wp_rd; [lia|]. apply wp_wr; [lia|]. rewrite upd_length. split; [auto|]. intros x Hx. rewrite aget_upd by lia.
    destruct (Nat.eqb_spec x i) as [->|]; [auto|]. apply I2. lia.
  - intros d [D1 D2]. replace d with (firstn n src); auto. apply list_ext; [rewrite firstn_length; lia|]. intros x Hx. rewrite firstn_length in Hx.
    rewrite aget_firstn by lia. symmetry. apply D2. lia.
Qed.
End General.

(** the parts of the coarse nodes *)
Lemma spread_wp n new_n coarsen (cors : list Z) (Q : list Z -> Prop) : new_n <= length cors -> 1 <= coarsen -> (0 < new_n -> new_n - 1 + coarsen <= n) ->
  (forall part, length part = n -> (forall j, 0 < new_n -> j < new_n - 1 + coarsen -> part.[j] = cors.[Nat.min j (new_n - 1)]) ->
     (forall j, j < n -> new_n = 0 \/ new_n - 1 + coarsen <= j -> part.[j] = 0%Z) -> Q part) ->
  wp (spread_parts n new_n coarsen cors) Q.
Proof.
  intros HL Hc Hn HQ. unfold spread_parts.
  apply wp_for with (I := fun i part => length part = n /\ (forall j, 0 < i -> j < i - 1 + coarsen -> part.[j] = cors.[Nat.min j (i - 1)]) /\
     (forall j, j < n -> i = 0 \/ i - 1 + coarsen <= j -> part.[j] = 0%Z)).
  - lia.
  - rewrite repeat_length. split; [auto|]. split; [intros; lia|]. intros j Hj _. now apply aget_repeat.
  - intros i part Hi (I1 & I2 & I3). wp1. apply wp_rd; [lia|].
    apply wp_for with (I := fun j p => length p = n /\ (forall x, i <= x < j -> p.[x] = cors.[i]) /\ (forall x, x < i \/ j <= x -> p.[x] = part.[x])).
    + lia.
    + split; [auto|]. split; [intros; lia|auto].
    + intros j p Hj (J1 & J2 & J3). apply wp_wr; [lia|]. rewrite upd_length. split; [auto|]. split; intros x Hx; rewrite aget_upd by lia.
      * destruct (Nat.eqb_spec x j); [auto|]. apply J2. lia.
      * destruct (Nat.eqb_spec x j); [lia|]. apply J3. lia.
    + intros p (J1 & J2 & J3). split; [auto|]. split.
      * intros j _ Hj. replace (S i - 1) with i in * by lia. destruct (le_lt_dec i j).
        -- rewrite J2 by lia. f_equal. lia.
        -- rewrite J3 by lia. rewrite I2 by lia. f_equal. lia.
      * intros j Hj [|Hge]; [lia|]. rewrite J3 by lia. apply I3; [auto|]. lia.
  - intros part (P1 & P2 & P3). apply HQ; auto.
Qed.

(** the first coarse node whose range leaves the array *)
Lemma spread_oob n new_n coarsen (cors : list Z) : new_n <= length cors -> 1 <= coarsen -> 0 < new_n -> n < new_n - 1 + coarsen ->
  spread_parts n new_n coarsen cors = Err OOB.
Proof.
  intros HL Hc H0 Hn. unfold spread_parts.
  (* inner loop: writing past the end *)
  assert (INN : forall d i v (p : list Z), length p = n -> n < i + d -> i <= n -> for_ i (i + d) (fun j part => wr part j v) p = Err OOB).
  { induction d as [|d IH]; intros i v p Hp H1 H2; [lia|]. rewrite for_step by lia. destruct (Nat.eq_dec i n) as [->|].
    - unfold wr. replace (n <? length p) with false by lia. auto.
    - unfold wr. replace (i <? length p) with true by lia. cbn [bind]. replace (i + S d) with (S i + d) by lia. apply IH; rewrite ?upd_length; lia. }
  assert (INO : forall d i v (p : list Z), length p = n -> i + d <= n -> exists q, for_ i (i + d) (fun j part => wr part j v) p = Ok q /\ length q = n).
  { induction d as [|d IH]; intros i v p Hp H1; [exists p; rewrite Nat.add_0_r, for_nil by lia; auto|]. rewrite for_step by lia.
    unfold wr. replace (i <? length p) with true by lia. cbn [bind]. replace (i + S d) with (S i + d) by lia. apply IH; rewrite ?upd_length; lia. }
  assert (OUT : forall d i p, length p = n -> i + d = new_n -> 0 < d -> i + coarsen <= n \/ i <= n ->
    for_ i new_n (fun i part => i2p <- rd cors i;; for_ i (i + coarsen) (fun j part => wr part j i2p) part) p = Err OOB).
  { induction d as [|d IH]; intros i p Hp Hd Hpos Hor; [lia|]. rewrite for_step by lia. rewrite rd_ok by lia. cbn [bind].
    destruct (le_lt_dec (i + coarsen) n) as [L|L].
    - destruct (INO coarsen i cors.[i] p Hp L) as (q & -> & Hq). cbn [bind]. apply IH; auto; lia.
    - rewrite INN by lia. reflexivity. }
  apply (OUT new_n 0); auto; try lia. now rewrite repeat_length.
Qed.

Section Drivers.
Context {V : Type} {DV : Dflt V}.
Variable kway : nat -> list nat -> list nat -> option (list nat) -> nat -> list Z.

(** the smallest label, or [m] *)
Definition zmin (m : Z) (l : list Z) : Z := fold_left Z.min l m.
Lemma zmin_snoc m l x : zmin m (l ++ [x]) = Z.min (zmin m l) x.
Proof. unfold zmin. now rewrite fold_left_app. Qed.

Lemma partition_general_wp (A : csc V) k (Q : list Z -> Prop) : mat_ok A -> cm A = cn A -> 0 < cn A ->
  (forall p i, rep (map (offrow A) (seq 0 (cn A))) p i -> length p = cn A + 1 -> length i = cnnz A ->
     let w := map (fun u => 1 + (cp A).[S u] - (cp A).[u]) (seq 0 (cn A)) in
     let z := kway (cn A) p i (Some w) k in
     cn A <= length z /\ Q (map (fun v => (v - zmin (Z.of_nat (cn A)) (firstn (cn A) z))%Z) (firstn (cn A) z))) ->
  wp (metis_partition_general kway A k) Q.
Proof.
  intros HA Hsq Hn HQ. unfold metis_partition_general. apply wp_bind. apply general_graph_wp; auto. intros p i R Lp Li _.
  destruct (HQ p i R Lp Li) as [HZ HQ']. clear HQ. destruct HA as (W & _ & _). destruct W as (W1 & W2 & W3 & W4 & W5).
  apply wp_bind. apply wp_for with (I := fun j w => length w = cn A /\ forall x, x < j -> w.[x] = 1 + (cp A).[S x] - (cp A).[x]).
  { lia. } { rewrite repeat_length. split; [auto|intros; lia]. }
  { intros j w Hj [I1 I2]. wp1. apply wp_rd; [lia|]. wp1. apply wp_rd; [lia|]. apply wp_wr; [lia|]. rewrite upd_length. split; [auto|]. intros x Hx.
    rewrite aget_upd by lia. destruct (Nat.eqb_spec x j) as [->|]; [auto|]. apply I2. lia. }
  intros w [Lw Hw].
  assert (Ew : w = map (fun u => 1 + (cp A).[S u] - (cp A).[u]) (seq 0 (cn A))).
  { apply list_ext; [now rewrite map_length, seq_length|]. intros x Hx. rewrite Hw by lia. rewrite aget_map by (rewrite seq_length; lia). rewrite aget_seq by lia. auto. }
  rewrite <- Ew in *. set (z := kway (cn A) p i (Some w) k) in *. set (mn := zmin (Z.of_nat (cn A)) (firstn (cn A) z)) in *. cbv zeta in HZ, HQ'. cbv zeta. apply wp_bind.
  apply wp_for with (I := fun j s => let '(part, m) := s in length part = cn A /\ (forall x, x < j -> part.[x] = z.[x]) /\ m = zmin (Z.of_nat (cn A)) (firstn j z)).
  { lia. } { rewrite repeat_length. split; [auto|]. split; [intros; lia|reflexivity]. }
  { intros j [part m] Hj (I1 & I2 & ->). wp1. apply wp_rd; [lia|]. wp1. apply wp_wr; [lia|]. apply wp_ret. rewrite upd_length. split; [auto|]. split.
    - intros x Hx. rewrite aget_upd by lia. destruct (Nat.eqb_spec x j) as [->|]; [auto|]. apply I2. lia.
    - rewrite (firstn_S_aget z j) by lia. now rewrite zmin_snoc. }
  intros [part m] (P1 & P2 & ->). fold mn.
  assert (EZ : part = firstn (cn A) z).
  { apply list_ext; [rewrite firstn_length; lia|]. intros x Hx. rewrite aget_firstn by lia. apply P2. lia. }
  destruct (mn =? 0)%Z eqn:E0.
  - apply wp_ret. replace part with (map (fun v => (v - mn)%Z) (firstn (cn A) z)); auto. rewrite <- EZ. rewrite <- (map_id part) at 2. apply map_ext. lia.
  - apply wp_for with (I := fun j d => length d = cn A /\ (forall x, x < j -> d.[x] = (part.[x] - mn)%Z) /\ forall x, j <= x -> d.[x] = part.[x]).
    { lia. } { split; [auto|]. split; [intros; lia|auto]. }
    { intros j d Hj (I1 & I2 & I3). wp1. apply wp_rd; [lia|]. apply wp_wr; [lia|]. rewrite upd_length. split; [auto|]. split; intros x Hx; rewrite aget_upd by lia.
      - destruct (Nat.eqb_spec x j) as [->|]; [rewrite I3 by lia; auto|]. apply I2. lia.
      - destruct (Nat.eqb_spec x j) as [->|]; [lia|]. apply I3. lia. }
    intros d (D1 & D2 & _). replace d with (map (fun v => (v - mn)%Z) (firstn (cn A) z)); auto. rewrite <- EZ.
    apply list_ext; [rewrite map_length; lia|]. intros x Hx. rewrite map_length in Hx. rewrite aget_map by lia. symmetry. apply D2. lia.
Qed.
End Drivers.

Lemma new_size_room n k : 1 <= k <= n -> new_size n k - 1 + k <= n.
Proof.
  intros H. destruct (Nat.eq_dec (new_size n k) 0) as [E|E]; [lia|].
  pose proof (new_size_le n k (new_size n k - 1) ltac:(lia) ltac:(lia)). nia.
Qed.
Lemma new_size_tight n k : 0 < n -> n < k -> new_size n k = 1.
Proof. intros H1 H2. unfold new_size. rewrite Nat.mod_small, Nat.div_small by lia. replace (n =? 0) with false by lia. auto. Qed.
