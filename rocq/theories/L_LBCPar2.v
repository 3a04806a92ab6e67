(** Proofs about the parallel LBC coarsening: nodes, labels and parts of one slab. *)
From Verif Require Import Base Lib Lib2 Spec M_LevelSet L_LevelSet L_LevelSet2 M_CC P_CC M_LBC M_LBCPar L_LBC L_LBC2 L_LBC3 L_LBC4 L_LBC5 L_LBC6 L_LBCPar.
From Coq Require Import ZifyBool ZifyNat.

Lemma sum_list n l (f : nat -> nat) : NoDup l -> (forall x, In x l -> x < n) ->
  list_sum (map f l) = sum_r 0 n (fun u => if existsb (Nat.eqb u) l then f u else 0).
Proof.
  induction 1 as [|x l Hx ND IH]; intros HB; simpl.
  - symmetry. apply sum_r_all_zero. auto.
  - rewrite IH by (intros; apply HB; now right).
    rewrite <- (sum_r_delta 0 n x (f x)) at 1 by (specialize (HB x ltac:(now left)); lia).
    rewrite <- sum_r_add. apply sum_r_ext. intros i Hi. destruct (Nat.eqb_spec i x) as [->|]; simpl; auto.
    destruct (existsb (Nat.eqb x) l) eqn:E; [|lia]. apply existsb_exists in E. destruct E as (y & Hy & Ey). apply Nat.eqb_eq in Ey. subst y. contradiction.
Qed.

Lemma aget_tab {A} `{Dflt A} (f : nat -> A) n v : v < n -> (map f (seq 0 n)).[v] = f v.
Proof. intros Hv. rewrite (aget_map f) by (rewrite seq_length; auto). f_equal. unfold aget. now rewrite seq_nth. Qed.

Section Slab.
Context {T : Type} `{DT : Dflt T}.
Variables (zero : T) (add : T -> T -> T) (ltb : T -> T -> bool) (int_max : T).
Variable sortp : list (T * list nat) -> list (T * list nat).
Hypothesis sort_perm : forall l, Permutation (sortp l) l.
Variable racy : nat -> list T -> list T.
Hypothesis racy_len : forall l x, length (racy l x) = length x.
Variable nodeCost : list T.
Variables (n : nat) (Lp Li : list nat).
Hypothesis W : wf_csc n Lp Li.
Hypothesis D1 : one_diag n Lp Li.
Hypothesis Hcost : n <= length nodeCost.
Variables (levelNo : nat) (lp ls n2l : list nat).
Hypothesis LO : lev_ok n Lp Li levelNo lp ls n2l.
Hypothesis Hlen : S levelNo < length lp.
Hypothesis Htail : lp.[S levelNo] = 0.
Variable innerParts : Z.
Hypothesis Hip : innerParts <> 0%Z.

(** nodes of the levels [a, b) *)
Definition snodes (a k : nat) : list nat := map (aget ls) (seq lp.[a] (k - lp.[a])).

Lemma snodes_S a k : lp.[a] <= k -> snodes a (S k) = snodes a k ++ [ls.[k]].
Proof. intros H. unfold snodes. replace (S k - lp.[a]) with (k - lp.[a] + 1) by lia. rewrite seq_app, map_app. simpl. do 3 f_equal. lia. Qed.

Lemma snodes_len a k : length (snodes a k) = k - lp.[a].
Proof. unfold snodes. now rewrite map_length, seq_length. Qed.

Lemma snodes_at a k j : j < k - lp.[a] -> (snodes a k).[j] = ls.[lp.[a] + j].
Proof. intros H. unfold snodes. rewrite (aget_map (aget ls)) by (rewrite seq_length; auto). f_equal. unfold aget. rewrite seq_nth by auto. auto. Qed.

Lemma count_col_wp x deg (Q : list Z -> Prop) : x < n -> length deg = n ->
  (forall deg', length deg' = n -> (forall v, v < n -> deg'.[v] = (deg.[v] + Z.of_nat (mult Lp Li x v))%Z) -> Q deg') ->
  wp (for_ Lp.[x] Lp.[S x] (fun r deg => cn <- rd Li r ;; d <- rd deg cn ;; wr deg cn (d + 1)%Z) deg) Q.
Proof.
  intros Hx HL HQ. pose proof W as (W1 & W2 & W3 & W4 & W5).
  apply (wp_for (fun r d => length d = n /\ forall v, v < n -> d.[v] = (deg.[v] + Z.of_nat (cnt Lp.[x] r (fun k => Nat.eqb Li.[k] v)))%Z)).
  - apply W3. auto.
  - split; auto. intros v Hv. unfold cnt. rewrite sum_r_nil by lia. lia.
  - intros r d Hr (I1 & I2). destruct (wf_col_lt n Lp Li W x r Hx ltac:(lia)) as [Hr1 Hr2].
    assert (Hcn : Li.[r] < n) by (apply W5; auto).
    wp1. wp1; [auto|]. wp1. wp1; [lia|]. wp1; [lia|]. rewrite upd_length. split; auto. intros v Hv.
    rewrite aget_upd by lia. rewrite cnt_S by lia. destruct (Nat.eqb_spec v Li.[r]) as [->|Hne].
    + rewrite I2 by auto. rewrite Nat.eqb_refl. simpl b2n. lia.
    + rewrite I2 by auto. replace (Li.[r] =? v) with false by lia. simpl b2n. lia.
  - intros d (I1 & I2). apply HQ; auto.
Qed.

Lemma collect_wp a b (Q : list nat * list Z -> Prop) : a < levelNo -> a < b -> b <= S levelNo ->
  (forall deg, length deg = n ->
     (forall v, v < n -> deg.[v] = Z.of_nat (list_sum (map (fun u => mult Lp Li u v) (snodes a lp.[Nat.min b levelNo])))) ->
     Q (snodes a lp.[Nat.min b levelNo], deg)) ->
  wp (collect_slab n Lp Li lp ls a b) Q.
Proof.
  intros Ha Hab Hb HQ. unfold collect_slab. pose proof W as (W1 & W2 & W3 & W4 & W5).
  pose proof (lo_ls _ _ _ _ _ _ _ LO) as L2.
  set (P := fun k (st : list nat * list Z) => let '(nodes, deg) := st in nodes = snodes a k /\ length deg = n /\
     forall v, v < n -> deg.[v] = Z.of_nat (list_sum (map (fun u => mult Lp Li u v) (snodes a k)))).
  apply (wp_for (fun ii st => P lp.[Nat.min ii levelNo] st)).
  - lia.
  - rewrite Nat.min_l by lia. unfold P. splits.
    + unfold snodes. now rewrite Nat.sub_diag.
    + apply repeat_length.
    + intros v Hv. unfold snodes. rewrite Nat.sub_diag. simpl. now rewrite aget_repeat.
  - intros ii [nodes deg] Hii I. wp1. wp1; [lia|]. wp1. wp1; [lia|].
    destruct (Nat.eq_dec ii levelNo) as [->|Hne].
    { rewrite Htail, for_nil by lia. wp1. now rewrite Nat.min_r in * by lia. }
    rewrite Nat.min_l in * by lia.
    pose proof (lo_mono _ _ _ _ _ _ _ LO a ii ltac:(lia) ltac:(lia)). pose proof (lo_mono _ _ _ _ _ _ _ LO ii (S ii) ltac:(lia) ltac:(lia)).
    pose proof (lo_le _ _ _ _ _ _ _ LO (S ii) ltac:(lia)).
    apply (wp_for P); auto.
    intros j [nodes' deg'] Hj (-> & I2 & I3). pose proof (lo_lt _ _ _ _ _ _ _ LO j ltac:(lia)) as Hlt.
    wp1. wp1; [lia|]. rewrite snodes_len. wp1. replace (j - lp.[a] <? n) with true by lia. wp1.
    wp1. wp1; [lia|]. wp1. wp1; [lia|]. wp1. apply count_col_wp; auto. intros d' E1 E2. wp1.
    unfold P. rewrite snodes_S by lia. splits; auto. intros v Hv. rewrite E2, I3 by auto. rewrite map_app, list_sum_app. simpl. lia.
  - intros [nodes deg] (-> & I2 & I3). apply HQ; auto.
Qed.

Section Levels.
Variables (a b : nat).
Hypothesis Ha : a < levelNo.
Hypothesis Hab : a < b.
Hypothesis Hb : b <= S levelNo.
Let nd := snodes a lp.[Nat.min b levelNo].

Lemma nd_in v : v < n -> (In v nd <-> a <= n2l.[v] < b).
Proof.
  intros Hv. unfold nd, snodes. rewrite in_map_iff. destruct (lo_in _ _ _ _ _ _ _ LO v Hv) as (Hl & i & Hi & Ei).
  pose proof (lo_mono _ _ _ _ _ _ _ LO a (Nat.min b levelNo) ltac:(lia) ltac:(lia)). split.
  - intros (j & Ej & Hj). apply in_seq in Hj. pose proof (lo_range _ _ _ _ _ _ _ LO a (Nat.min b levelNo) j ltac:(lia) ltac:(lia) ltac:(lia)). rewrite Ej in *. lia.
  - intros H1. exists i. split; auto. apply in_seq.
    pose proof (lo_mono _ _ _ _ _ _ _ LO a n2l.[v] ltac:(lia) ltac:(lia)). pose proof (lo_mono _ _ _ _ _ _ _ LO (S n2l.[v]) (Nat.min b levelNo) ltac:(lia) ltac:(lia)). lia.
Qed.

Lemma nd_lt v : In v nd -> v < n.
Proof.
  unfold nd, snodes. rewrite in_map_iff. intros (j & <- & Hj). apply in_seq in Hj. apply (lo_lt _ _ _ _ _ _ _ LO).
  pose proof (lo_le _ _ _ _ _ _ _ LO (Nat.min b levelNo) ltac:(lia)). lia.
Qed.

Lemma nd_nodup : NoDup nd.
Proof.
  pose proof (lo_le _ _ _ _ _ _ _ LO (Nat.min b levelNo) ltac:(lia)). destruct (lo_part _ _ _ _ _ _ _ LO) as (_ & _ & _ & _ & Inj).
  unfold nd, snodes.
  assert (G : forall l, NoDup l -> (forall i, In i l -> i < n) -> NoDup (map (aget ls) l)).
  { induction 1 as [|x l Hx ND IH]; intros HB; simpl; constructor.
    - rewrite in_map_iff. intros (y & Ey & Hy). apply Inj in Ey; [subst; auto|apply HB; now right|apply HB; now left].
    - apply IH. intros; apply HB; now right. }
  apply G; [apply seq_NoDup|]. intros i Hi. apply in_seq in Hi. lia.
Qed.

Lemma nd_slab v : In v nd <-> slab n n2l a b v.
Proof. split; [intros H; pose proof (nd_lt v H); split; auto; now apply nd_in|intros (H1 & H2); now apply nd_in]. Qed.

(** every node is connected to a node of the first level *)
Lemma conn_first v : slab n n2l a b v -> exists w, slab n n2l a b w /\ n2l.[w] = a /\ connected (edge_within (edge n Lp Li) nd) v w.
Proof.
  remember (n2l.[v] - a) as d eqn:Ed. revert v Ed. induction d as [|d IH]; intros v Ed Sv; pose proof Sv as (Hv & Hl).
  - exists v. splits; auto; [lia|]. apply conn_refl.
  - destruct (lo_pred _ _ _ _ _ _ _ LO v Hv ltac:(lia)) as (u & He & Eu). destruct (wf_edge_lt n Lp Li W u v He) as [Hu _].
    assert (Su : slab n n2l a b u) by (split; [auto|lia]).
    destruct (IH u ltac:(lia) Su) as (w & Sw & Ew & C). exists w. splits; auto.
    eapply conn_trans; [|exact C]. apply conn_sym, conn_edge. split; [auto|]. split; now apply nd_slab.
Qed.

Lemma labels_wp mem (Q : list nat -> Prop) : length mem = n ->
  (forall labels, length labels = n ->
     (forall v, slab n n2l a b v -> labels.[v] < lp.[S a] - lp.[a]) ->
     (forall u v, slab n n2l a b u -> slab n n2l a b v -> edge n Lp Li u v -> labels.[v] = labels.[u]) -> Q labels) ->
  wp (parallel_cc Lp Li a b n2l nd mem) Q.
Proof.
  intros HM HQ. pose proof (lo_n2l _ _ _ _ _ _ _ LO) as LN.
  assert (HI : cc_input n Lp Li a b n2l nd mem).
  { unfold cc_input. splits; auto; try lia. - apply nd_nodup. - apply nd_lt. - intros v Hv. now apply nd_in. }
  destruct (C08_components_deterministic _ _ _ _ _ _ _ _ HI) as (labels & E & (mem' & Hx) & Hall).
  destruct (C06_components_any_interleaving _ _ _ _ _ _ _ _ HI) as (_ & H6). destruct (H6 mem' Hx) as (L1 & L2 & L3 & L4).
  rewrite (Hall mem' Hx) in *. rewrite E. apply HQ; [lia| |].
  - intros v Sv. destruct (conn_first v Sv) as (w & Sw & Ew & C). destruct (L3 v ltac:(now apply nd_slab)) as (_ & _ & M).
    destruct Sw as (Hw & Hwl). destruct (lo_in _ _ _ _ _ _ _ LO w Hw) as (_ & i & Hi & Ei). rewrite Ew in Hi.
    pose proof (lo_mono _ _ _ _ _ _ _ LO (S a) (Nat.min b levelNo) ltac:(lia) ltac:(lia)).
    specialize (M (i - lp.[a])). unfold nd in M. rewrite snodes_len in M. specialize (M ltac:(lia)).
    rewrite snodes_at in M by lia. replace (lp.[a] + (i - lp.[a])) with i in M by lia. rewrite Ei in M. specialize (M C). lia.
  - intros u v Su Sv He. apply L2; try (now apply nd_slab). apply conn_sym, conn_edge. split; [auto|]. split; now apply nd_slab.
Qed.

Lemma cc_costs_wp labels out (Q : list T * nat -> Prop) : length labels = n -> length out = n ->
  (forall v, slab n n2l a b v -> labels.[v] < lp.[S a] - lp.[a]) ->
  (forall out' cc, length out' = n -> cc <= lp.[S a] - lp.[a] -> (forall v, slab n n2l a b v -> labels.[v] < cc) -> Q (out', cc)) ->
  wp (cc_costs add labels nd nodeCost out) Q.
Proof.
  intros H1 H2 H3 HQ. unfold cc_costs. pose proof (lo_le _ _ _ _ _ _ _ LO (S a) ltac:(lia)).
  apply (wp_foreach (fun pre '(o, mx) => length o = n /\ mx <= lp.[S a] - lp.[a] /\ forall v, In v pre -> labels.[v] < mx)).
  - splits; auto; try lia. intros v [].
  - intros pre v post [o mx] E (I1 & I2 & I3). assert (Sv : slab n n2l a b v) by (apply nd_slab; rewrite E; apply in_app_iff; right; now left).
    pose proof Sv as (Hv & _). specialize (H3 v Sv). wp1. wp1; [lia|]. wp1. wp1; [lia|]. wp1. wp1; [lia|]. wp1. wp1; [lia|]. wp1.
    rewrite upd_length. splits; auto; [lia|]. intros x Hx. apply in_app_iff in Hx. destruct Hx as [Hx|[<-|[]]]; [specialize (I3 x Hx)|]; lia.
  - intros [o mx] (I1 & I2 & I3). apply HQ; auto. intros v Sv. apply I3. now apply nd_slab.
Qed.

(** the in-degrees counted inside the slab *)
Lemma slab_deg v : slab n n2l a b v ->
  list_sum (map (fun u => mult Lp Li u v) nd) = remdeg n Lp Li (fun u => n2l.[u] <? a) v.
Proof.
  intros (Hv & Hl). rewrite (sum_list n) by (apply nd_nodup || apply nd_lt). unfold remdeg. apply sum_r_ext. intros u Hu.
  assert (EX : existsb (Nat.eqb u) nd = (a <=? n2l.[u]) && (n2l.[u] <? b)).
  { destruct (existsb (Nat.eqb u) nd) eqn:E.
    - apply existsb_exists in E. destruct E as (y & Hy & Ey). apply Nat.eqb_eq in Ey. subst y. apply nd_in in Hy; [|lia]. lia.
    - destruct ((a <=? n2l.[u]) && (n2l.[u] <? b)) eqn:E2; auto. exfalso.
      assert (In u nd) by (apply nd_in; lia). assert (X : existsb (Nat.eqb u) nd = true) by (apply existsb_exists; exists u; split; auto; apply Nat.eqb_refl). congruence. }
  rewrite EX. destruct (Nat.eqb_spec u v) as [->|Hne].
  - replace ((a <=? n2l.[v]) && (n2l.[v] <? b)) with true by lia. rewrite andb_false_r. auto.
  - rewrite andb_true_r. destruct (Nat.ltb_spec n2l.[u] a) as [L|L].
    + replace (a <=? n2l.[u]) with false by lia. auto.
    + destruct (Nat.ltb_spec n2l.[u] b) as [L2|L2].
      * replace (a <=? n2l.[u]) with true by lia. auto.
      * rewrite andb_false_r. destruct (Nat.eq_dec (mult Lp Li u v) 0) as [->|Hm]; auto. exfalso.
        assert (He : edge n Lp Li u v) by (apply mult_edge; auto; lia).
        pose proof (lo_edge _ _ _ _ _ _ _ LO u v He). lia.
Qed.
End Levels.

(** work arrays of a thread that has done no slab from level [c] on *)
Definition th_ok (c : nat) (s : @tstate T) : Prop :=
  length (t_vis s) = n /\ length (t_out s) = n /\ length (t_new s) = n /\ length (t_n2p s) = n /\
  forall v, v < n -> c <= n2l.[v] -> (t_vis s).[v] = false.

Lemma process_wp a b l large sizes p2l s : a < levelNo -> a < b -> b <= S levelNo ->
  p2l.[l] = a -> p2l.[S l] = b -> S l < length p2l -> l < length sizes -> 1 <= sizes.[l] -> th_ok a s ->
  wp (process_l_partition add ltb int_max sortp racy n Lp Li lp ls n2l nodeCost levelNo innerParts sizes p2l true large l s)
     (fun '(s', parts) => th_ok b s' /\ slab_parts n Lp Li lp n2l a b sizes.[l] parts).
Proof.
  intros Ha Hab Hb Ea Eb Hp Hs Hs1 (I1 & I2 & I3 & I4 & I5). unfold process_l_partition.
  wp1. wp1; [lia|]. rewrite Ea. wp1. wp1; [lia|]. rewrite Eb.
  wp1. apply collect_wp; auto. intros deg G1 G2. cbv iota.
  wp1. apply labels_wp; auto. intros labels LA1 LA2 LA3.
  wp1. apply cc_costs_wp; auto. intros out cc O1 O2 O3. cbv iota.
  pose proof (lo_le _ _ _ _ _ _ _ LO (S a) ltac:(lia)) as Hn1.
  wp1. wp1; [lia|]. wp1. wp1; [lia|].
  pose proof (lo_ls _ _ _ _ _ _ _ LO) as L2.
  wp1. eapply (wp_mono _ _ (fun m => length m = n /\ forall v, v < n -> a <= n2l.[v] -> m.[v] = false)).
  { pose proof (lo_mono _ _ _ _ _ _ _ LO (a - 1) a ltac:(lia) ltac:(lia)). pose proof (lo_le _ _ _ _ _ _ _ LO a ltac:(lia)).
    apply (wp_for (fun j m => length m = n /\ forall v, v < n -> a <= n2l.[v] -> m.[v] = false)); auto.
    intros j m Hj (J1 & J2). pose proof (lo_lt _ _ _ _ _ _ _ LO j ltac:(lia)). wp1. wp1; [lia|]. wp1; [lia|].
    rewrite upd_length. split; auto. intros v Hv Hl. rewrite aget_upd_ne; auto. intros E.
    pose proof (lo_range _ _ _ _ _ _ _ LO (a - 1) a j ltac:(lia) ltac:(lia) ltac:(lia)). rewrite E in *. lia. }
  intros v0 (V01 & V02).
  wp1. apply (mark_levels_wp n Lp Li levelNo lp ls n2l LO); auto. intros v2 V1 V2.
  (* the search *)
  set (d1 := map (fun v => (Z.of_nat (remdeg n Lp Li (fun u => n2l.[u] <? a)%nat v) - Z.of_nat (b2n (n2l.[v] <? a)%nat))%Z) (seq 0 n)).
  set (v1 := map (fun v => (n2l.[v] <? a) || (b <=? n2l.[v])) (seq 0 n)).
  assert (D1v : forall v, v < n -> d1.[v] = (Z.of_nat (remdeg n Lp Li (fun u => n2l.[u] <? a)%nat v) - Z.of_nat (b2n (n2l.[v] <? a)%nat))%Z).
  { intros v Hv. unfold d1. now rewrite aget_tab. }
  assert (V1v : forall v, v < n -> v1.[v] = (n2l.[v] <? a) || (b <=? n2l.[v])).
  { intros v Hv. unfold v1. now rewrite aget_tab. }
  assert (AG : agree n n2l a b d1 deg v1 v2).
  { unfold agree, d1, v1. rewrite !map_length, !seq_length. fold d1 v1. splits; auto.
    - intros v Sv. pose proof Sv as (Hv & Hl). split.
      + rewrite D1v, G2 by auto. rewrite slab_deg by auto. replace (n2l.[v] <? a) with false by lia. simpl b2n. lia.
      + rewrite V1v, V2 by auto. replace ((b <=? n2l.[v]) && (n2l.[v] <? levelNo)) with false by lia. rewrite V02 by (auto; lia). lia.
    - intros v Hv Hl. rewrite V1v, V2 by auto. destruct (lo_in _ _ _ _ _ _ _ LO v Hv) as (Hv2 & _).
      replace ((b <=? n2l.[v]) && (n2l.[v] <? levelNo)) with true by lia. split; [lia|auto]. }
  set (n2p := map Some labels).
  assert (NP : forall v, v < n -> n2p.[v] = Some labels.[v]) by (intros v Hv; unfold n2p; rewrite (aget_map Some) by lia; auto).
  assert (Hpart : forall v, slab n n2l a b v -> exists c, n2p.[v] = Some c /\ c < cc).
  { intros v Sv. exists labels.[v]. split; [apply NP; apply Sv|now apply O3]. }
  assert (DN : forall u, u < n -> done_ n2l b v1 u = (n2l.[u] <? a)) by (intros u Hu; unfold done_; rewrite V1v by auto; lia).
  assert (BF : wp (modified_BFS_CSC n Lp Li d1 v1 n2p lp ls a (repeat [] cc)) (fun '(d', v', lists) => length lists = cc /\ (forall v, v < n -> v'.[v] = true) /\
     (forall c, c < cc -> NoDup lists.[c]) /\ (forall c v, c < cc -> (In v lists.[c] <-> slab n n2l a b v /\ n2p.[v] = Some c)) /\
     (forall c pre v post, c < cc -> lists.[c] = pre ++ v :: post -> forall u, slab n n2l a b u -> edge n Lp Li u v -> In u pre))).
  { apply (bfs_wp n Lp Li W D1 levelNo lp ls n2l LO a b Ha Hab n2p cc); auto.
    - unfold n2p. now rewrite map_length.
    - intros u v Su Sv He. rewrite !NP by (apply Su || apply Sv). f_equal. now apply LA3.
    - unfold d1. now rewrite map_length, seq_length.
    - unfold v1. now rewrite map_length, seq_length.
    - intros v Hv Hl. rewrite V1v by auto. lia.
    - intros v (Hv & Hl). rewrite V1v by auto. lia.
    - intros v Hv. rewrite D1v by auto. rewrite DN by auto. rewrite (remdeg_ext n Lp Li (done_ n2l b v1) (fun u => n2l.[u] <? a)); auto. }
  apply wp_ok in BF. destruct BF as ([[d1' v1'] lists] & EB & (B1 & B2 & B3 & B4 & B5)).
  destruct (bfs_rel n Lp Li W levelNo lp ls n2l LO a b Ha n2p d1 deg v1 v2 _ d1' v1' lists AG Hab EB) as (d2' & v2' & EB2 & (A1 & A2 & A3 & A4 & A5 & A6)).
  wp1. rewrite EB2. wp1. cbv iota.
  wp1. apply (mark_levels_wp n Lp Li levelNo lp ls n2l LO); auto. intros v3 V3 V4.
  wp1. destruct (Z.eqb_spec innerParts 0) as [E0|_]; [contradiction|]. wp1. wp1. wp1; [lia|].
  wp1. cbn [andb].
  apply (pack_wp add ltb int_max sortp sort_perm nodeCost n Lp Li Hcost 0 lp n2l ltac:(intros; lia) a b sizes.[l] cc n2p lists); auto.
  { destruct large; auto. now rewrite racy_len. }
  intros ps nc' Hnc Hps. cbv iota. wp1. split; auto. unfold th_ok. cbn [t_vis t_out t_new t_n2p]. splits; auto.
  - destruct large; auto. now rewrite racy_len.
  - intros v Hv Hl. rewrite V4 by auto. destruct (lo_in _ _ _ _ _ _ _ LO v Hv) as (Hv2 & _).
    now replace ((b <=? n2l.[v]) && (n2l.[v] <? levelNo)) with true by lia.
Qed.
End Slab.
