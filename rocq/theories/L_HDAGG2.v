(** Proofs about the greedy window search, part 2: computeCC. *)
From Verif Require Import Base Lib Lib2 Spec M_CC L_CC M_Sched L_Sched M_HDAGG L_HDAGG.
From Coq Require Import ZifyBool ZifyNat.

(** ** Component labels as a starting point for a larger node list *)
Section Labels.
Variables (n : nat) (lC lR : list nat).

Lemma cc_labels_self nodes mem0 m : cc_labels n lC lR nodes mem0 m ->
  forall i, i < length nodes -> m.[nodes.[i]] <= i /\ m.[nodes.[m.[nodes.[i]]]] = m.[nodes.[i]].
Proof.
  intros (L1 & L2 & L3) i Hi. destruct (L3 i Hi) as (A1 & A2 & A3).
  split; [apply A3; auto; constructor|].
  destruct (L3 _ A1) as (B1 & B2 & B3). apply Nat.le_antisymm.
  - apply B3; auto. constructor.
  - apply A3; auto. eapply conn_trans; eauto.
Qed.

Lemma cc_labels_ext nodes mem0 m : cc_labels n lC lR nodes mem0 m ->
  forall i j, i < length nodes -> j < length nodes ->
  (m.[nodes.[i]] = m.[nodes.[j]] <-> connected (edge_within (edge n lC lR) nodes) nodes.[i] nodes.[j]).
Proof.
  intros (L1 & L2 & L3) i j Hi Hj. destruct (L3 i Hi) as (A1 & A2 & A3). destruct (L3 j Hj) as (B1 & B2 & B3).
  split.
  - intros Eq. rewrite Eq in A2. eapply conn_trans; [exact A2|]. now apply conn_sym.
  - intros C. apply Nat.le_antisymm.
    + apply A3; auto. eapply conn_trans; eauto.
    + apply B3; auto. eapply conn_trans; [apply conn_sym; exact C|exact A2].
Qed.

(** distinct labels count the components *)
Lemma labels_components nodes mem0 m (P : nat -> bool) : cc_labels n lC lR nodes mem0 m -> NoDup nodes ->
  (forall x, In x nodes -> x < n) ->
  (forall l, l < n -> (P l = true <-> exists i, i < length nodes /\ m.[nodes.[i]] = l)) ->
  n_components (edge_within (edge n lC lR) nodes) nodes (cnt 0 n P).
Proof.
  intros HL ND NB HP. pose proof HL as (L1 & L2 & L3).
  assert (HN : length nodes <= n) by now apply NoDup_bounded_length.
  exists (map (aget nodes) (filter P (seq 0 n))).
  assert (Hrep : forall l, In l (filter P (seq 0 n)) -> l < length nodes /\ m.[nodes.[l]] = l).
  { intros l Hl. apply filter_In in Hl. destruct Hl as [Hs Hl]. apply in_seq in Hs.
    apply HP in Hl; [|lia]. destruct Hl as (i & Hi & <-). destruct (L3 i Hi) as (A1 & _). split; auto.
    now apply (cc_labels_self nodes mem0 m HL). }
  splits.
  - rewrite map_length, cnt_filter, Nat.sub_0_r. reflexivity.
  - apply NoDup_of_aget. rewrite map_length. intros i j Hi Hj Eq. rewrite !aget_map in Eq by auto.
    pose proof (aget_In _ _ Hi) as Hi'. pose proof (aget_In _ _ Hj) as Hj'.
    apply Hrep in Hi'. apply Hrep in Hj'. apply NoDup_aget in Eq; auto; try lia.
    apply NoDup_aget in Eq; auto. apply NoDup_filter, seq_NoDup.
  - intros r Hr. apply in_map_iff in Hr. destruct Hr as (l & <- & Hl). apply Hrep in Hl.
    exact (aget_In nodes l (proj1 Hl)).
  - intros x Hx. apply In_aget in Hx. destruct Hx as [i [Hi <-]]. destruct (L3 i Hi) as (A1 & A2 & A3).
    exists nodes.[m.[nodes.[i]]]. split; [|exact A2]. apply in_map. apply filter_In. split.
    + apply in_seq. lia.
    + apply HP; [lia|]. exists i. auto.
  - intros r r' Hr Hr' HR. apply in_map_iff in Hr. destruct Hr as (l & <- & Hl).
    apply in_map_iff in Hr'. destruct Hr' as (l' & <- & Hl'). apply Hrep in Hl. apply Hrep in Hl'.
    apply (cc_labels_ext nodes mem0 m HL) in HR; try lia. f_equal. lia.
Qed.

End Labels.

(** ** part_exist, node2partition_map, costs *)

Lemma mark_parts_wp n lab (Q : list nat -> Prop) : (forall l, In l lab -> l <= n) ->
  (forall ex, length ex = n -> (forall l, l < n -> (ex.[l] <> 0 <-> In l lab)) -> Q ex) ->
  wp (mark_parts n lab) Q.
Proof.
  intros HB HQ. unfold mark_parts.
  apply (wp_foreach (fun pre ex => length ex = n /\ forall l, l < n -> (ex.[l] <> 0 <-> In l pre))).
  - split; [apply repeat_length|]. intros l Hl. rewrite aget_repeat by auto. simpl. tauto.
  - intros pre x post ex El (G1 & G2).
    assert (Hx : x <= n) by (apply HB; rewrite El; apply in_app_iff; right; now left).
    destruct (Nat.eqb_spec x n) as [->|Hn].
    + apply wp_ret. split; auto. intros l Hl. rewrite G2, in_app_iff by auto. simpl. intuition lia.
    + wp1; [lia|]. rewrite upd_length. split; auto. intros l Hl. rewrite aget_upd by lia. rewrite in_app_iff. simpl.
      destruct (Nat.eqb_spec l x) as [->|].
      * intuition.
      * rewrite G2 by auto. intuition congruence.
  - intros ex (G1 & G2). now apply HQ.
Qed.

Lemma number_parts_wp n ex (Q : _ -> Prop) : length ex = n ->
  let P := fun l => negb (ex.[l] =? 0) in
  (forall mp, length mp = n -> (forall l, l < n -> P l = true -> mp.[l] = cnt 0 l P) -> Q (mp, cnt 0 n P)) ->
  wp (number_parts n ex) Q.
Proof.
  intros HL P HQ. unfold number_parts.
  apply (wp_for (fun i st => let '(mp, c) := st in length mp = n /\ c = cnt 0 i P /\
    forall l, l < i -> P l = true -> mp.[l] = cnt 0 l P)).
  - lia.
  - splits; auto; [apply repeat_length|]. intros; lia.
  - intros i (mp & c) Hi (G1 & G2 & G3). wp1. wp1; [lia|].
    rewrite cnt_S by lia. assert (EP : P i = negb (ex.[i] =? 0)) by reflexivity.
    destruct (Nat.eqb_spec ex.[i] 0) as [Ez|Ez]; simpl in EP.
    + apply wp_ret. rewrite EP. simpl b2n. splits; auto; [lia|]. intros l Hl HP.
      apply G3; auto. destruct (Nat.eq_dec l i) as [->|]; [congruence|lia].
    + wp1. wp1; [lia|]. apply wp_ret. rewrite upd_length, EP. simpl b2n. splits; auto; [lia|].
      intros l Hl HP. rewrite aget_upd by lia. destruct (Nat.eqb_spec l i) as [->|]; auto. apply G3; auto. lia.
  - intros (mp & c) (G1 & -> & G3). now apply HQ.
Qed.

Lemma cnt_onto n P q : q < cnt 0 n P -> exists l, l < n /\ P l = true /\ cnt 0 l P = q.
Proof.
  induction n as [|n IH]; intros Hq.
  - unfold cnt in Hq. rewrite sum_r_nil in Hq by lia. lia.
  - rewrite cnt_S in Hq by lia. destruct (lt_dec q (cnt 0 n P)) as [H|H].
    + destruct (IH H) as (l & Hl & HP & E). exists l. splits; auto.
    + destruct (P n) eqn:En; simpl in Hq; [|lia]. exists n. splits; auto. lia.
Qed.

Lemma part_costs_wp n node_cost nodes lab mp K (Q : _ -> Prop) :
  K <= n -> length lab = n -> length mp = n -> n <= length node_cost ->
  (forall x, In x nodes -> x < n /\ lab.[x] < n /\ mp.[lab.[x]] < K) ->
  (forall q, q < K -> exists x, In x nodes /\ mp.[lab.[x]] = q) ->
  (forall pcost total, length pcost = n -> sum_r 0 K (aget pcost) = total ->
     ((forall x, x < n -> 0 < node_cost.[x]) -> forall q, q < K -> 0 < pcost.[q]) -> Q (pcost, total)) ->
  wp (part_costs n node_cost nodes lab mp) Q.
Proof.
  intros HK HL HM HC HN Honto HQ. unfold part_costs.
  apply (wp_foreach (fun pre st => let '(pc, total) := st in length pc = n /\ sum_r 0 K (aget pc) = total /\
    ((forall x, x < n -> 0 < node_cost.[x]) -> forall x, In x pre -> 0 < pc.[mp.[lab.[x]]]))).
  - splits; [apply repeat_length| |intros _ x []]. apply sum_r_all_zero. intros i Hi. now rewrite aget_repeat by lia.
  - intros pre x post (pc & total) El (G1 & G2 & G3).
    destruct (HN x ltac:(rewrite El; apply in_app_iff; right; now left)) as (X1 & X2 & X3).
    wp1. wp1; [lia|]. wp1. wp1; [lia|]. wp1. wp1; [lia|]. wp1. wp1; [lia|]. wp1. wp1; [lia|]. apply wp_ret.
    rewrite upd_length. splits; auto.
    + pose proof (sum_r_upd 0 K (aget pc) mp.[lab.[x]] (pc.[mp.[lab.[x]]] + node_cost.[x]) ltac:(lia)) as Hu.
      rewrite (sum_r_ext 0 K (aget (upd pc mp.[lab.[x]] (pc.[mp.[lab.[x]]] + node_cost.[x])))
        (fun i => if i =? mp.[lab.[x]] then pc.[mp.[lab.[x]]] + node_cost.[x] else pc.[i]))
        by (intros i Hi; apply aget_upd; lia). lia.
    + intros Hpos y Hy. apply in_app_iff in Hy. rewrite aget_upd by lia. specialize (Hpos x X1) as Hc.
      destruct (Nat.eqb_spec mp.[lab.[y]] mp.[lab.[x]]); [lia|].
      destruct Hy as [Hy|[<-|[]]]; auto. congruence.
  - intros (pc & total) (G1 & G2 & G3). apply HQ; auto. intros Hpos q Hq.
    destruct (Honto q Hq) as (x & Hx & <-). auto.
Qed.

(** ** computeCC *)
Section CompCC.
Variables (n k : nat) (DAG_ptr DAG_set level_ptr level_set n2l node_cost : list nat).
Notation E := (edge n DAG_ptr DAG_set).
Hypothesis W : wf_csc n DAG_ptr DAG_set.
Hypothesis LP : level_partition n k level_ptr level_set.
Hypothesis HLp : k < length level_ptr.
Hypothesis HLs : n <= length level_set.
Hypothesis HLn : n <= length n2l.
Hypothesis HN2L : forall l v, l < k -> in_level level_ptr level_set l v -> n2l.[v] = l.
Hypothesis HE : forall u v, E u v -> n2l.[u] < n2l.[v].
Hypothesis HLc : n <= length node_cost.

Notation win := (win_nodes level_ptr level_set).
Notation labels a b m := (cc_labels n DAG_ptr DAG_set (win a b) (repeat n n) m).
Notation comps a b K := (n_components (edge_within E (win a b)) (win a b) K).

Lemma ptr_mono i j : i <= j -> j <= k -> level_ptr.[i] <= level_ptr.[j].
Proof. apply (mono_le (aget level_ptr) k). apply LP. Qed.
Lemma ptr_le i : i <= k -> level_ptr.[i] <= n.
Proof. intros Hi. pose proof (ptr_mono i k Hi ltac:(lia)). destruct LP as (_ & _ & Hk & _). lia. Qed.

Lemma sub_nodes_wp lb ub (Q : _ -> Prop) : lb <= ub -> ub <= k -> Q (win lb ub) ->
  wp (sub_nodes level_ptr level_set lb ub) Q.
Proof.
  intros H1 H2 HQ. unfold sub_nodes. pose proof (ptr_mono lb ub H1 H2). pose proof (ptr_le ub H2).
  wp1. wp1; [lia|]. wp1. wp1; [lia|].
  destruct (Nat.leb_spec level_ptr.[lb] level_ptr.[ub]); [|lia].
  destruct (Nat.leb_spec level_ptr.[ub] (length level_set)); [|lia]. exact HQ.
Qed.

Lemma wlen a b : a <= b -> b <= k -> length (win a b) = level_ptr.[b] - level_ptr.[a].
Proof. exact (win_len n k DAG_ptr DAG_set level_ptr level_set n2l LP HLp HLs HLn HN2L HE a b). Qed.
Lemma wnodup a b : a <= b -> b <= k -> NoDup (win a b).
Proof. exact (win_nodup n k DAG_ptr DAG_set level_ptr level_set n2l LP HLp HLs HLn HN2L HE a b). Qed.
Lemma wlt a b x : a <= b -> b <= k -> In x (win a b) -> x < n.
Proof. exact (win_lt n k DAG_ptr DAG_set level_ptr level_set n2l LP HLp HLs HLn HN2L HE a b x). Qed.
Lemma win_iff a b x : a <= b -> b <= k -> x < n -> (In x (win a b) <-> a <= n2l.[x] < b).
Proof. exact (win_in n k DAG_ptr DAG_set level_ptr level_set n2l LP HLp HLs HLn HN2L HE a b x). Qed.

Lemma waget a b i : i < level_ptr.[b] - level_ptr.[a] -> (win a b).[i] = level_set.[level_ptr.[a] + i].
Proof. intros Hi. unfold win_nodes. now apply aget_slice. Qed.

Lemma labels_init lb : labels lb lb (repeat n n).
Proof.
  unfold cc_labels. splits; auto. unfold win_nodes. rewrite slice_nil by lia. simpl. intros; lia.
Qed.

Lemma labels_out a b m x : labels a b m -> x < n -> ~ In x (win a b) -> m.[x] = n.
Proof. intros (L1 & L2 & _) Hx Hn. rewrite L2 by auto. now apply aget_repeat. Qed.

(** one level: no two of its nodes are connected *)
Lemma one_level_conn lb u v : S lb <= k -> connected (edge_within E (win lb (S lb))) u v -> u = v.
Proof.
  intros Hk HC. induction HC as [x|x y (He & Hx & Hy)|x y HC IH|x y z H1 IH1 H2 IH2]; auto; [|congruence].
  exfalso. pose proof (wlt lb (S lb) _ ltac:(lia) Hk Hx). pose proof (wlt lb (S lb) _ ltac:(lia) Hk Hy).
  apply win_iff in Hx; auto. apply win_iff in Hy; auto. apply HE in He. lia.
Qed.

Lemma one_level_comps lb : S lb <= k -> comps lb (S lb) (level_ptr.[S lb] - level_ptr.[lb]).
Proof.
  intros Hk. exists (win lb (S lb)). splits; auto.
  - apply wlen; lia.
  - apply wnodup; lia.
  - intros x Hx. exists x. split; auto. constructor.
  - intros r r' _ _ HC. now apply one_level_conn in HC.
Qed.

Definition cc_post (lb ub : nat) (r : list nat * nat * list nat * nat) : Prop :=
  let '(m, cnt, pcost, total) := r in
  labels lb ub m /\ comps lb ub cnt /\ length pcost = n /\ cnt <= n /\
  sum_r 0 cnt (aget pcost) = total /\
  ((forall x, x < n -> 0 < node_cost.[x]) -> forall q, q < cnt -> 0 < pcost.[q]).

Lemma cc_one_level_wp lb comp m : S lb <= k -> lb <= comp <= S lb -> labels lb comp m ->
  wp (cc_one_level n level_ptr level_set node_cost lb (S lb) m) (cc_post lb (S lb)).
Proof.
  intros Hk Hc HL. unfold cc_one_level. pose proof (ptr_mono lb (S lb) ltac:(lia) Hk) as HM.
  pose proof (ptr_le (S lb) Hk) as Hle. wp1. wp1; [lia|]. wp1. wp1; [lia|].
  set (a := level_ptr.[lb]) in *. set (b := level_ptr.[S lb]) in *.
  pose proof HL as (L1 & L2 & _). rewrite repeat_length in L1.
  assert (Hout : forall x, x < n -> ~ In x (win lb (S lb)) -> m.[x] = n).
  { intros x Hx Hn. apply (labels_out lb comp); auto. intros Hin. apply Hn.
    apply win_iff; auto; try lia. apply win_iff in Hin; auto; lia. }
  assert (Hls : forall i, a <= i < b -> level_set.[i] < n /\ In level_set.[i] (win lb (S lb))).
  { intros i Hi. split; [apply LP; lia|]. apply In_slice; fold a b; try lia. exists i. auto. }
  wp1. apply (wp_for (fun np st => let '(m', pc, total) := st in
    length m' = n /\ length pc = n /\
    (forall x, x < n -> ~ In x (win lb (S lb)) -> m'.[x] = n) /\
    (forall i, a <= i < np -> m'.[level_set.[i]] = i - a /\ pc.[i - a] = node_cost.[level_set.[i]]) /\
    total = sum_r 0 (np - a) (aget pc))); auto.
  - splits; auto; try (intros; lia); [apply repeat_length|]. rewrite sum_r_nil by lia. auto.
  - intros np ((m' & pc) & total) Hnp (G1 & G2 & G3 & G4 & G5).
    destruct (Hls np Hnp) as [H1 H2].
    wp1. wp1; [lia|]. wp1. wp1; [lia|]. wp1. wp1; [lia|]. wp1. wp1; [lia|]. apply wp_ret.
    rewrite !upd_length. splits; auto.
    + intros x Hx Hn. rewrite aget_upd_ne by (intros Eq; apply Hn; congruence). auto.
    + intros i Hi. destruct (Nat.eq_dec i np) as [->|Hn].
      * rewrite !aget_upd_eq by lia. auto.
      * destruct (G4 i ltac:(lia)) as [G6 G7]. rewrite !aget_upd_ne; auto; try lia.
        intros Eq. apply Hn. destruct LP as (_ & _ & _ & _ & Hinj). apply Hinj; auto; lia.
    + replace (S np - a) with (S (np - a)) by lia. rewrite sum_r_S by lia. rewrite aget_upd_eq by lia.
      f_equal. rewrite G5. apply sum_r_ext. intros i Hi. now rewrite aget_upd_ne by lia.
  - intros ((m' & pc) & total) (G1 & G2 & G3 & G4 & G5). apply wp_ret. unfold cc_post.
    assert (Hlab : forall i, i < b - a -> m'.[(win lb (S lb)).[i]] = i).
    { intros i Hi. rewrite waget by (fold a b; lia). fold a. destruct (G4 (a + i) ltac:(lia)). lia. }
    splits; auto; try lia.
    + unfold cc_labels. rewrite repeat_length, wlen by lia. fold a b. splits; auto.
      * intros x Hx. destruct (lt_dec x n).
        -- rewrite aget_repeat by auto. auto.
        -- unfold aget. rewrite !nth_overflow; auto; rewrite ?repeat_length; lia.
      * intros i Hi. rewrite Hlab by auto. splits; auto; [constructor|].
        intros j Hj HC. apply one_level_conn in HC; [|auto].
        apply NoDup_aget in HC; rewrite ?wlen; fold a b; try lia. apply wnodup; lia.
    + apply one_level_comps. auto.
    + intros Hpos q Hq. destruct (G4 (a + q) ltac:(lia)) as [_ G6].
      replace (a + q - a) with q in G6 by lia. rewrite G6. apply Hpos. apply Hls. lia.
Qed.

Lemma conn_widen a b b' u v : a <= b -> b <= b' -> b' <= k ->
  connected (edge_within E (win a b)) u v -> connected (edge_within E (win a b')) u v.
Proof.
  intros H1 H2 H3. apply connected_mono. intros x y (He & Hx & Hy).
  pose proof (wlt a b _ H1 ltac:(lia) Hx). pose proof (wlt a b _ H1 ltac:(lia) Hy).
  unfold edge_within. splits; auto; apply win_iff; auto; try lia.
  - apply win_iff in Hx; auto; lia.
  - apply win_iff in Hy; auto; lia.
Qed.

Lemma cc_new_nodes_wp lb comp ub m (Q : list nat -> Prop) : lb <= comp -> comp <= ub -> ub <= k -> labels lb comp m ->
  (forall m', length m' = n -> good n DAG_ptr DAG_set (win lb ub) m' -> star (win lb ub) m' ->
     (forall x, x < n -> ~ In x (win lb ub) -> m'.[x] = n) -> Q m') ->
  wp (cc_new_nodes n (win lb ub) (level_ptr.[comp] - level_ptr.[lb]) m) Q.
Proof.
  intros H1 H2 H3 HL HQ. unfold cc_new_nodes.
  pose proof (ptr_mono lb comp H1 ltac:(lia)) as M1. pose proof (ptr_mono comp ub H2 H3) as M2.
  pose proof (ptr_le ub H3) as M3.
  set (a := level_ptr.[lb]) in *. set (c := level_ptr.[comp]) in *. set (b := level_ptr.[ub]) in *.
  pose proof HL as (L1 & L2 & L3). rewrite repeat_length in L1.
  assert (Len : length (win lb ub) = b - a) by (apply wlen; lia).
  assert (Lenc : length (win lb comp) = c - a) by (apply wlen; lia).
  assert (Hag : forall i, i < c - a -> (win lb ub).[i] = (win lb comp).[i]).
  { intros i Hi. rewrite !waget; auto; fold a b c; lia. }
  assert (Hnd : NoDup (win lb ub)) by (apply wnodup; lia).
  assert (Hlt : forall i, i < b - a -> (win lb ub).[i] < n).
  { intros i Hi. apply (wlt lb ub); try lia. apply aget_In. lia. }
  rewrite Len.
  apply (wp_for (fun i m' => length m' = n /\
     (forall j, j < c - a -> m'.[(win lb ub).[j]] = m.[(win lb ub).[j]]) /\
     (forall j, c - a <= j < i -> m'.[(win lb ub).[j]] = j) /\
     (forall j, i <= j < b - a -> m'.[(win lb ub).[j]] = n) /\
     (forall x, x < n -> ~ In x (win lb ub) -> m'.[x] = n))).
  - lia.
  - splits; auto; [intros; lia| |].
    + intros j Hj. apply (labels_out lb comp); auto; [apply Hlt; lia|].
      intros Hin. apply In_aget in Hin. destruct Hin as [j' [Hj' Eq]]. rewrite Lenc in Hj'.
      rewrite <- Hag in Eq by auto. apply NoDup_aget in Eq; auto; lia.
    + intros x Hx Hn. apply (labels_out lb comp); auto. intros Hin. apply Hn.
      apply win_iff; auto; try lia. apply win_iff in Hin; auto; lia.
  - intros i m' Hi (G1 & G2 & G3 & G4 & G5). specialize (Hlt i ltac:(lia)) as Hx.
    wp1. wp1; [lia|]. wp1. wp1; [lia|]. rewrite G4 by lia. rewrite Nat.eqb_refl. wp1; [lia|].
    assert (Hne : forall j, j < b - a -> j <> i -> (win lb ub).[j] <> (win lb ub).[i]).
    { intros j Hj Hn Eq. apply Hn. apply NoDup_aget in Eq; auto; lia. }
    rewrite upd_length. splits; auto.
    + intros j Hj. rewrite aget_upd_ne; auto. apply not_eq_sym, Hne; lia.
    + intros j Hj. destruct (Nat.eq_dec j i) as [->|]; [now rewrite aget_upd_eq by lia|].
      rewrite aget_upd_ne; [apply G3; lia|]. apply not_eq_sym, Hne; lia.
    + intros j Hj. rewrite aget_upd_ne; [apply G4; lia|]. apply not_eq_sym, Hne; lia.
    + intros x Hxn Hn. rewrite aget_upd_ne; auto. intros <-. apply Hn, aget_In. lia.
  - intros m' (G1 & G2 & G3 & G4 & G5).
    assert (Hp : forall j, j < b - a -> p (win lb ub) m' j = if j <? c - a then m.[(win lb comp).[j]] else j).
    { intros j Hj. unfold p. destruct (Nat.ltb_spec j (c - a)).
      - rewrite G2 by auto. now rewrite Hag.
      - apply G3. lia. }
    apply HQ; auto.
    + split; [lia|]. rewrite Len. intros j Hj. rewrite Hp by auto. destruct (Nat.ltb_spec j (c - a)) as [Hjc|].
      * destruct (L3 j ltac:(lia)) as (A1 & A2 & A3).
        destruct (cc_labels_self n DAG_ptr DAG_set _ _ _ HL j ltac:(lia)) as [Hle _]. split; auto.
        rewrite !Hag by lia. apply (conn_widen lb comp ub); auto.
      * split; [lia|constructor].
    + intros j Hj. rewrite Len in Hj. rewrite (Hp j) by auto. destruct (Nat.ltb_spec j (c - a)) as [Hjc|Hjc].
      * destruct (cc_labels_self n DAG_ptr DAG_set _ _ _ HL j ltac:(lia)) as [Hle Hs].
        rewrite Hp by lia. destruct (Nat.ltb_spec m.[(win lb comp).[j]] (c - a)); [auto|lia].
      * rewrite (Hp j) by auto. destruct (Nat.ltb_spec j (c - a)); [lia|auto].
Qed.

Lemma computeCC_wp lb comp ub m (Q : _ -> Prop) : lb < ub -> ub <= k -> lb <= comp <= ub -> labels lb comp m ->
  (forall r, cc_post lb ub r -> Q r) ->
  wp (computeCC n DAG_ptr DAG_set level_ptr level_set n2l node_cost lb comp ub m) Q.
Proof.
  intros H1 H2 H3 HL HQ. unfold computeCC. wp1. apply sub_nodes_wp; [lia|lia|].
  wp1. wp1; [lia|]. wp1. wp1; [lia|].
  destruct (Nat.eqb_spec (ub - lb) 1) as [Eo|Eo].
  { assert (ub = S lb) as -> by lia. eapply wp_mono; [eapply cc_one_level_wp; eauto|]. auto. }
  wp1. apply cc_new_nodes_wp; auto; try lia. intros m1 Lm1 G1 S1 O1.
  pose proof (wnodup lb ub ltac:(lia) ltac:(lia)) as ND.
  assert (NB : forall x, In x (win lb ub) -> x < n) by (intros x Hx; apply (wlt lb ub); auto; lia).
  assert (HW : forall v, v < n -> (In v (win lb ub) <-> lb <= n2l.[v] < ub)) by (intros v Hv; apply win_iff; auto; lia).
  wp1. apply (cc_iterate_wp n DAG_ptr DAG_set lb ub n2l (win lb ub) W ND NB HLn HW); auto.
  intros m2 (F1 & F2) G2 S2 E2.
  assert (HLB : labels lb ub m2).
  { pose proof (fin_labels n DAG_ptr DAG_set lb ub n2l (win lb ub) NB HLn HW m1 m2 (conj (conj F1 F2) (conj G2 (conj S2 E2)))) as (X1 & X2 & X3).
    unfold cc_labels. rewrite repeat_length. splits; auto; [lia|]. intros x Hx.
    destruct (lt_dec x n) as [Hxn|Hxn].
    - rewrite aget_repeat by auto. rewrite X2 by auto. auto.
    - unfold aget. rewrite !nth_overflow; auto; rewrite ?repeat_length; lia. }
  pose proof HLB as (X1 & X2 & X3). rewrite repeat_length in X1.
  assert (HN : length (win lb ub) <= n) by now apply NoDup_bounded_length.
  assert (Hlab : forall x, x < n -> (In x (win lb ub) /\ m2.[x] < length (win lb ub)) \/ (~ In x (win lb ub) /\ m2.[x] = n)).
  { intros x Hx. destruct (in_dec Nat.eq_dec x (win lb ub)) as [Hin|Hin].
    - left. split; auto. apply In_aget in Hin. destruct Hin as [i [Hi <-]]. now destruct (X3 i Hi).
    - right. split; auto. now apply (labels_out lb ub). }
  wp1. apply mark_parts_wp.
  { intros l Hl. apply In_aget in Hl. destruct Hl as [x [Hx <-]]. destruct (Hlab x ltac:(lia)); lia. }
  intros ex Lex Hex. wp1. apply number_parts_wp; auto. intros mp Lmp Hmp.
  set (P := fun l => negb (ex.[l] =? 0)) in *.
  assert (HP : forall l, l < n -> (P l = true <-> exists i, i < length (win lb ub) /\ m2.[(win lb ub).[i]] = l)).
  { intros l Hl. unfold P. rewrite negb_true_iff, Nat.eqb_neq, Hex by auto. split.
    - intros Hi. apply In_aget in Hi. destruct Hi as [x [Hx <-]]. rewrite X1 in Hx.
      destruct (Hlab x Hx) as [[Hin _]|[_ Eq]]; [|lia]. apply In_aget in Hin. destruct Hin as [i [Hi <-]]. eauto.
    - intros (i & Hi & <-). apply aget_In. rewrite X1. apply NB, aget_In. auto. }
  assert (HK : cnt 0 n P <= n) by (pose proof (cnt_le 0 n P); lia).
  wp1. apply part_costs_wp with (K := cnt 0 n P); auto.
  - intros x Hx. specialize (NB x Hx) as Hxn. destruct (Hlab x Hxn) as [[_ Hl]|[? _]]; [|contradiction].
    splits; auto; [lia|]. assert (HPx : P m2.[x] = true).
    { apply HP; [lia|]. apply In_aget in Hx. destruct Hx as [i [Hi <-]]. eauto. }
    rewrite Hmp by (auto; lia).
    rewrite (cnt_split 0 (S m2.[x]) n) by lia. rewrite cnt_S by lia. rewrite HPx. simpl. lia.
  - intros q Hq. destruct (cnt_onto n P q Hq) as (l & Hl & HPl & <-).
    destruct (proj1 (HP l Hl) HPl) as (i & Hi & Ei). exists (win lb ub).[i]. split; [now apply aget_In|].
    rewrite Ei. apply Hmp; auto.
  - intros pcost total Q1 Q2 Q3. apply wp_ret. apply HQ. unfold cc_post. splits; auto.
    eapply labels_components; eauto.
Qed.

End CompCC.
