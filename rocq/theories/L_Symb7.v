(** The pattern of the factor: build_L_pattern (lfactor_creation.cpp 311-361). *)
From Coq Require Import ZifyBool ZifyNat.
From Verif Require Import Base Lib Lib2 Lib3 Spec SpecETree SpecMat SpecSym M_Tree M_Symb P_Tree L_ETree P_Post P_TreeH P_ETree L_Symb5 L_Symb6.

Definition nsum (f : nat -> nat) (c : nat) : nat := list_sum (map f (seq 0 c)).
Lemma nsum_S f c : nsum f (S c) = nsum f c + f c.
Proof. unfold nsum. rewrite seq_S, map_app, List.list_sum_app. cbn. lia. Qed.
Lemma nsum_le f c d : c < d -> nsum f c + f c <= nsum f d.
Proof. induction 1; [now rewrite nsum_S|]. rewrite nsum_S. lia. Qed.
Lemma nsum_mono f c d : c <= d -> nsum f c <= nsum f d.
Proof. intros H. destruct (Nat.eq_dec c d) as [->|]; auto. pose proof (nsum_le f c d ltac:(lia)). lia. Qed.

Section Pattern.
Variables (n : nat) (Ap Ai : list nat) (par : list Z) (pat : nat -> nat -> bool).
Hypothesis WR : wf_rows n Ap Ai.
Hypothesis LP : n <= length par.
Notation A := (below n Ap Ai).
Hypothesis EP : forall v, v < n -> etree_parent A n v par.[v].
Hypothesis HP : forall c u, c < n -> u < n -> (pat c u = true <-> u = c \/ (c < u /\ fill A c u)).

(** the rows below [s] in column [c] *)
Definition rows (c s : nat) : list nat := filter (pat c) (seq 0 s).
Definition cnt (c : nat) : nat := length (rows c n).
Lemma rows_S c s : rows c (S s) = rows c s ++ (if pat c s then [s] else []).
Proof. unfold rows. rewrite seq_S, filter_app. cbn [filter Nat.add]. destruct (pat c s); reflexivity. Qed.
Lemma rows_mono c s t : s <= t -> length (rows c s) <= length (rows c t).
Proof. induction 1; auto. rewrite rows_S, app_length. lia. Qed.
Lemma rows_nil c : c < n -> rows c c = [].
Proof.
  intros Hc. destruct (rows c c) as [|x l] eqn:E; auto. assert (H : In x (rows c c)) by (rewrite E; now left). apply filter_In in H. destruct H as [H1 H2]. apply in_seq in H1.
  apply HP in H2; lia.
Qed.
Lemma rows_room c s : c < n -> s < n -> pat c s = true -> length (rows c s) < cnt c.
Proof. intros Hc Hs H. unfold cnt. pose proof (rows_mono c (S s) n ltac:(lia)) as G. rewrite rows_S, H, app_length in G. cbn [length] in G. lia. Qed.

(** the state: columns [D] have received row [s] *)
Definition pinv (s : nat) (D : nat -> bool) (Li finger : list nat) : Prop :=
  length Li = nsum cnt n /\ length finger = n /\
  forall c, c < n -> finger.[c] = length (rows c s ++ (if D c then [s] else [])) /\
    forall t, t < finger.[c] -> Li.[nsum cnt c + t] = (rows c s ++ (if D c then [s] else [])).[t].

Lemma pinv_fit s D Li finger c : pinv s D Li finger -> s < n -> (forall c, c < n -> D c = true -> pat c s = true) -> c < n -> finger.[c] <= cnt c.
Proof.
  intros (_ & _ & H) Hs HD Hc. destruct (H c Hc) as [-> _]. rewrite app_length. destruct (D c) eqn:E; cbn [length].
  - pose proof (rows_room c s Hc Hs (HD c Hc E)). lia.
  - rewrite Nat.add_0_r. apply rows_mono. lia.
Qed.

Lemma pinv_add s D Li finger c : pinv s D Li finger -> s < n -> (forall c, c < n -> D c = true -> pat c s = true) -> c < n -> D c = false -> pat c s = true ->
  nsum cnt c + finger.[c] < nsum cnt n /\ pinv s (fun x => (x =? c) || D x) (upd Li (nsum cnt c + finger.[c]) s) (upd finger c (S finger.[c])).
Proof.
  intros HI Hs HD Hc ED EP'. pose proof HI as (H1 & H2 & H3). destruct (H3 c Hc) as [F1 F2]. rewrite ED, app_nil_r in F1, F2. pose proof (rows_room c s Hc Hs EP') as RR.
  pose proof (nsum_le cnt c n Hc) as NL. split; [lia|]. split; [now rewrite upd_length|]. split; [now rewrite upd_length|]. intros x Hx. destruct (Nat.eq_dec x c) as [->|Hne].
  - rewrite Nat.eqb_refl. cbn [orb]. rewrite aget_upd_eq by lia. rewrite app_length. cbn [length]. split; [lia|]. intros t Ht. destruct (Nat.eq_dec t finger.[c]) as [->|Htne].
    + rewrite aget_upd_eq by lia. rewrite F1. now rewrite aget_app_last.
    + rewrite aget_upd_ne by lia. rewrite aget_app1 by lia. apply F2. lia.
  - rewrite aget_upd_ne by auto. replace (x =? c) with false by lia. cbn [orb]. destruct (H3 x Hx) as [G1 G2]. split; auto. intros t Ht. rewrite aget_upd_ne; [now apply G2|].
    pose proof (pinv_fit s D Li finger x HI Hs HD Hx). destruct (lt_dec x c) as [L|L]; [pose proof (nsum_le cnt x c L)|pose proof (nsum_le cnt c x ltac:(lia))]; lia.
Qed.

Definition width (c : nat) : nat := Ap.[S c] - Ap.[c].
(** the entries read to compute row [s] *)
Definition touched (s : nat) : nat := list_sum (map width (filter (fun c => pat c s) (seq 0 (S s)))).

Lemma row_pattern s T : s < n -> NoDup T -> (forall x, In x T <-> x < s /\ fill A x s) -> Permutation T (filter (fun c => pat c s) (seq 0 s)).
Proof.
  intros Hs ND H. apply NoDup_Permutation; auto; [apply NoDup_filter, seq_NoDup|]. intros x. rewrite filter_In, in_seq, (H x). split.
  - intros [H1 H2]. split; [lia|]. apply HP; auto; lia.
  - intros [H1 H2]. split; [lia|]. apply HP in H2; try lia. destruct H2 as [|[_ H2]]; [lia|auto].
Qed.

Lemma compute_cost_wp s xs xw (Q : nat * nat * list Z * list Z -> Prop) : s < n -> n <= length xs -> n <= length xw -> (forall x, x < n -> (0 <= xw.[x])%Z) ->
  (forall top xs' T, length xs' = length xs -> stack n par s top xs' T -> NoDup T -> (forall x, In x T <-> x < s /\ fill A x s) -> Q (touched s, top, xs', xw)) ->
  wp (compute_cost_per_col n s par Ap Ai xs xw) Q.
Proof.
  intros Hs LX LW W0 HQ. unfold compute_cost_per_col. apply wp_bind. apply (ereach_wp n Ap Ai par s WR LP EP Hs); auto. intros top xs' T T1 T2 T3 T4. pose proof T2 as (S1 & S2 & S3).
  pose proof WR as [R1 R2]. assert (R3 : forall c, c < n -> Ap.[c] <= Ap.[S c]) by (intros c Hc; apply R2; auto). apply wp_bind.
  apply wp_for with (I := fun p total => total = list_sum (map width (firstn (p - top) T))).
  - lia.
  - now rewrite Nat.sub_diag.
  - intros p total Hp ->. set (a := p - top). assert (ES : xs'.[p] = Z.of_nat T.[a]) by (replace p with (top + a) by lia; apply S2; lia).
    assert (BT : T.[a] < s) by (apply T4, nth_In; lia).
    apply wp_bind. apply wp_rd; [lia|]. rewrite ES. apply wp_bind. apply rdZ_wp; [lia|lia|]. apply wp_bind. apply rdZ_wp; [lia|lia|]. replace (Z.to_nat (Z.of_nat T.[a] + 1)) with (S T.[a]) by lia. rewrite Nat2Z.id. cbn [wp].
    replace (S p - top) with (S a) by lia. assert (SK : firstn (S a) T = firstn a T ++ [T.[a]]).
    { assert (Ha : a < length T) by lia. revert Ha. clear. generalize a. clear. intros a. revert T. induction a as [|a IH]; intros [|y T] Ha; cbn [length] in *; try lia; [reflexivity|]. cbn [firstn app]. f_equal. apply IH. lia. }
    rewrite SK, map_app, List.list_sum_app. cbn. unfold width. lia.
  - intros total ->. apply wp_bind. apply wp_rd; [lia|]. apply wp_bind. apply wp_rd; [lia|]. cbn [wp]. replace (n - top) with (length T) by lia. rewrite firstn_all.
    replace (list_sum (map width T) + (Ap.[S s] - Ap.[s])) with (touched s); [apply (HQ top xs' T); auto|].
    unfold touched. rewrite seq_S, filter_app, map_app, List.list_sum_app. cbn [filter Nat.add]. replace (pat s s) with true by (symmetry; apply HP; auto).
    rewrite (Permutation_map width (row_pattern s T Hs T3 T4)). cbn. unfold width. lia.
Qed.

Theorem build_L_pattern_wp cc acc0 (Q : list nat * list nat * list nat -> Prop) : n <= length cc -> n <= length acc0 -> (forall c, c < n -> cc.[c] = Z.of_nat (cnt c)) ->
  (forall Lp Li acc, length Lp = n + 1 -> (forall c, c <= n -> Lp.[c] = nsum cnt c) -> length Li = nsum cnt n ->
     (forall c, c < n -> slice Li Lp.[c] Lp.[S c] = rows c n) -> length acc = length acc0 -> (forall s, s < n -> acc.[s] = touched s) -> Q (Lp, Li, acc)) ->
  wp (build_L_pattern n Ap Ai cc par acc0) Q.
Proof.
  intros LC LA HC HQ. unfold build_L_pattern. apply wp_bind.
  apply wp_for with (I := fun l Lp => length Lp = n + 1 /\ forall c, c < l -> Lp.[c] = nsum cnt c).
  { lia. }
  { rewrite repeat_length. split; auto. intros c Hc. replace c with 0 by lia. rewrite aget_repeat by lia. reflexivity. }
  { intros l Lp Hl (L1 & L2). apply wp_bind. apply wp_rd; [lia|]. apply wp_bind. apply wp_rd; [lia|]. rewrite HC, L2 by lia. replace (Z.of_nat (cnt (l - 1)) <? 0)%Z with false by lia. rewrite Nat2Z.id.
    apply wp_wr; [lia|]. rewrite upd_length. split; auto. intros c Hc. destruct (Nat.eq_dec c l) as [->|Hne].
    - rewrite aget_upd_eq by lia. replace l with (S (l - 1)) at 3 by lia. now rewrite nsum_S.
    - rewrite aget_upd_ne by auto. apply L2. lia. }
  intros Lp (L1 & L2). apply wp_bind. apply wp_rd; [lia|]. rewrite L2 by lia. apply wp_bind.
  apply wp_for with (I := fun s '(acc, Li, finger, xs, xw) => length acc = length acc0 /\ (forall t, t < s -> acc.[t] = touched t) /\ pinv s (fun _ => false) Li finger /\ length xs = n /\ xw = repeat 0%Z n).
  - lia.
  - rewrite repeat_length. splits; auto; try lia. split; [apply repeat_length|]. split; [apply repeat_length|]. intros c Hc. rewrite aget_repeat by auto. split; [reflexivity|lia].
  - intros s [[[[acc Li] finger] xs] xw] Hs (I1 & I2 & I3 & I4 & ->). apply wp_bind. apply compute_cost_wp; try lia; [rewrite repeat_length; lia|intros x Hx; rewrite aget_repeat by auto; lia|].
    intros top xs' T T1 (S1 & S2 & S3) T3 T4. pose proof I3 as (J1 & J2 & J3).
    assert (PSS : pat s s = true) by (apply HP; try lia; auto).
    destruct (J3 s ltac:(lia)) as [F1 _]. rewrite app_nil_r, rows_nil in F1 by lia. cbn [length] in F1.
    destruct (pinv_add s (fun _ => false) Li finger s I3) as [A1 A2]; auto; try lia.
    rewrite F1, Nat.add_0_r in A1, A2.
    apply wp_bind. apply wp_wr; [lia|]. apply wp_bind. apply wp_rd; [lia|]. rewrite L2 by lia. apply wp_bind. apply wp_wr; [lia|]. apply wp_bind. apply wp_rd; [lia|]. rewrite F1. apply wp_bind. apply wp_wr; [lia|]. apply wp_bind.
    set (Dn := fun a x => (x =? s) || mem x (firstn a T)).
    assert (DP : forall a c, c < n -> Dn a c = true -> pat c s = true).
    { intros a c Hc HD. unfold Dn in HD. apply orb_true_iff in HD. destruct HD as [HD|HD]; [assert (c = s) by lia; now subst|]. apply mem_iff in HD.
      assert (In c T) by (rewrite <- (firstn_skipn a T); apply in_app_iff; auto). apply T4 in H. apply HP; auto; lia. }
    apply wp_for with (I := fun p '(Li, finger) => pinv s (Dn (p - top)) Li finger).
    + lia.
    + rewrite Nat.sub_diag. destruct A2 as (B1 & B2 & B3). split; auto.
    + intros p [Li1 fg1] Hp HI. set (a := p - top) in *. assert (ES : xs'.[p] = Z.of_nat T.[a]) by (replace p with (top + a) by lia; apply S2; lia).
      assert (IT : In T.[a] T) by (apply nth_In; lia). pose proof (proj1 (T4 T.[a]) IT) as [BT FT].
      assert (SK : firstn (S a) T = firstn a T ++ [T.[a]]).
      { assert (Ha : a < length T) by lia. revert Ha. clear. generalize a. clear. intros a. revert T. induction a as [|a IH]; intros [|y T] Ha; cbn [length] in *; try lia; [reflexivity|]. cbn [firstn app]. f_equal. apply IH. lia. }
      assert (ND : Dn a T.[a] = false).
      { unfold Dn. apply orb_false_iff. split; [lia|]. destruct (mem T.[a] (firstn a T)) eqn:EM; auto. exfalso. apply mem_iff in EM.
        rewrite <- (firstn_skipn (S a) T), SK in T3. rewrite <- app_assoc in T3. cbn [app] in T3. apply NoDup_remove_2 in T3. apply T3. apply in_app_iff. auto. }
      destruct (pinv_add s (Dn a) Li1 fg1 T.[a] HI) as [C1 C2]; auto; try lia; [intros c Hc; now apply DP|apply HP; auto; lia|]. pose proof HI as (D1 & D2 & D3).
      apply wp_bind. apply wp_rd; [lia|]. rewrite ES. replace (Z.of_nat n <=? Z.of_nat T.[a])%Z with false by lia.
      apply wp_bind. apply rdZ_wp; [lia|lia|]. apply wp_bind. apply rdZ_wp; [lia|lia|]. rewrite Nat2Z.id. rewrite L2 by lia.
      replace (nsum cnt n <=? nsum cnt T.[a] + fg1.[T.[a]]) with false by lia. apply wp_bind. apply wp_wr; [lia|]. apply wp_bind. apply wrZ_wp; [lia|lia|]. rewrite Nat2Z.id. cbn [wp].
      replace (S p - top) with (S a) by lia. destruct C2 as (E1 & E2 & E3). split; auto. split; auto. intros c Hc. destruct (E3 c Hc) as [E4 E5].
      assert (ED : Dn (S a) c = ((c =? T.[a]) || Dn a c)). { unfold Dn. rewrite SK, mem_app. cbn [mem existsb]. destruct (c =? s), (c =? T.[a]), (mem c (firstn a T)); reflexivity. }
      rewrite ED. auto.
    + intros [Li1 fg1] HI. cbn [wp]. rewrite upd_length. replace (n - top) with (length T) in HI by lia. split; [auto|]. split; [|split; [|auto]].
      * intros t Ht. destruct (Nat.eq_dec t s) as [->|Hne]; [now rewrite aget_upd_eq by lia|]. rewrite aget_upd_ne by auto. apply I2. lia.
      * destruct HI as (E1 & E2 & E3). split; auto. split; auto. intros c Hc. destruct (E3 c Hc) as [E4 E5].
        assert (ED : Dn (length T) c = pat c s).
        { apply eq_true_iff_eq. split; [now apply DP|]. intros HPc. unfold Dn. rewrite firstn_all. apply orb_true_iff. apply HP in HPc; try lia. destruct HPc as [->|HPc]; [left; lia|right]. apply mem_iff, T4. auto. }
        rewrite ED in E4, E5. rewrite app_nil_r, rows_S. auto.
      * split; [lia|auto].
  - intros [[[[acc Li] finger] xs] xw] (I1 & I2 & (J1 & J2 & J3) & I4 & I5). cbn [wp]. apply HQ; auto.
    + intros c Hc. apply L2. lia.
    + intros c Hc. rewrite !L2 by lia. rewrite nsum_S. destruct (J3 c Hc) as [K1 K2]. rewrite app_nil_r in K1, K2. pose proof (nsum_le cnt c n Hc).
      apply list_ext; [rewrite slice_length by lia; unfold cnt; lia|]. intros t Ht. rewrite slice_length in Ht by lia. rewrite aget_slice by lia. apply K2. unfold cnt in *. lia.
Qed.
End Pattern.
