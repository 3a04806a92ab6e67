(** level_set_bn: degrees, sources and levels. *)
From Verif Require Import Base Lib Lib2 Spec SpecFuse L_LBC5 M_Multi M_Fuse L_Bfs L_Fuse.
From Verif Require P_Tree.
From Coq Require Import ZifyBool ZifyNat.

Lemma leads_NoDup lower n nodes super : cutsZ lower n nodes super -> NoDup (map (lead super) (seq 0 nodes)).
Proof.
  intros CU. apply NoDup_of_aget. rewrite map_length, seq_length. intros i j Hi Hj E. rewrite !aget_map_seq in E by lia.
  apply (lead_inj lower n nodes super CU); auto.
Qed.
Lemma leads_In nodes super v : In v (map (lead super) (seq 0 nodes)) <-> exists s, s < nodes /\ v = lead super s.
Proof. rewrite in_map_iff. split; [intros (s & <- & H); apply in_seq in H; exists s; split; auto; lia|intros (s & H & ->); exists s; split; auto; apply in_seq; lia]. Qed.

Lemma fuse_sources_wp lower n nodes super deg N (Q : list nat * list bool -> Prop) :
  cutsZ lower n nodes super -> n <= N -> length deg = N ->
  (forall q inq, NoDup q -> (forall v, In v q <-> exists s, s < nodes /\ v = lead super s /\ deg.[v] = 0%Z) -> length inq = N ->
     (forall v, v < N -> (inq.[v] = true <-> In v q)) -> Q (q, inq)) ->
  wp (fuse_sources super nodes deg (repeat false N)) Q.
Proof.
  intros CU HN HD HQ. pose proof (cut_facts lower n nodes super CU) as (_ & _ & _ & C3 & _). unfold fuse_sources.
  apply (wp_for (fun i (st : list nat * list bool) => let '(q, inq) := st in NoDup q /\ (forall v, In v q <-> exists s, s < i /\ v = lead super s /\ deg.[v] = 0%Z) /\
     length inq = N /\ forall v, v < N -> (inq.[v] = true <-> In v q))); [lia| | |].
  - splits; [constructor| |apply repeat_length|].
    + intros v. split; [intros []|intros (s & H & _); lia].
    + intros v Hv. rewrite aget_repeat by auto. split; [discriminate|intros []].
  - intros i [q inq] Hi (I1 & I2 & I3 & I4). pose proof (lead_lt lower n nodes super CU i ltac:(lia)) as Hl. pose proof (lead_pos lower n nodes super CU i ltac:(lia)) as Hp.
    wp1. wp1; [lia|]. rewrite Hp. wp1. apply P_Tree.rdZ_wp; [lia|rewrite Nat2Z.id; lia|]. rewrite Nat2Z.id.
    destruct (Z.eqb_spec deg.[lead super i] 0) as [E|E].
    + wp1. wp1; [lia|]. wp1. rewrite upd_length. splits; auto.
      * apply NoDup_app'; auto; [constructor; [intros []|constructor]|]. intros x Hx [<-|[]]. apply I2 in Hx. destruct Hx as (s & Hs & Es & _).
        apply (lead_inj lower n nodes super CU) in Es; lia.
      * intros v. rewrite in_app_iff, I2. split.
        -- intros [(s & H1 & H2)|[<-|[]]]; [exists s; split; [lia|auto]|exists i; auto].
        -- intros (s & H1 & -> & H3). destruct (Nat.eq_dec s i) as [->|]; [right; now left|left; exists s; splits; auto; lia].
      * intros v Hv. rewrite aget_upd by lia. rewrite in_app_iff. destruct (Nat.eqb_spec v (lead super i)) as [->|Hne].
        -- split; auto. intros _. right. now left.
        -- rewrite I4 by auto. split; [auto|]. intros [H|[H|[]]]; [auto|]. exfalso. auto.
    + wp1. splits; auto. intros v. rewrite I2. split.
      * intros (s & H1 & H2). exists s. split; [lia|auto].
      * intros (s & H1 & -> & H3). destruct (Nat.eq_dec s i) as [->|]; [contradiction|]. exists s. splits; auto. lia.
  - intros [q inq] (I1 & I2 & I3 & I4). now apply HQ.
Qed.

(** adding one to the cells [s + q*n] *)
Lemma bump_wp n K s (deg : list Z) (Q : list Z -> Prop) : s < n -> length deg = K * n ->
  (forall deg', length deg' = K * n -> (forall x, x < K * n -> deg'.[x] = (deg.[x] + if (x mod n =? s)%nat then 1 else 0)%Z) -> Q deg') ->
  wp (for_ 0 K (fun q deg => d <- rd deg (s + q * n) ;; wr deg (s + q * n) (d + 1)%Z) deg) Q.
Proof.
  intros Hs HD HQ.
  apply (wp_for (fun q d => length d = K * n /\ forall x, x < K * n -> d.[x] = (deg.[x] + if ((x mod n =? s) && (x / n <? q))%nat then 1 else 0)%Z)); [lia| | |].
  - split; auto. intros x Hx. rewrite andb_false_r. lia.
  - intros q d Hq (I1 & I2). assert (B : s + q * n < K * n) by nia. wp1. wp1; [lia|]. wp1; [lia|]. rewrite upd_length. split; auto. intros x Hx.
    rewrite aget_upd by lia. rewrite !I2 by auto. pose proof (Nat.div_mod x n ltac:(lia)) as DM. pose proof (Nat.mod_upper_bound x n ltac:(lia)) as MB.
    destruct (Nat.eqb_spec x (s + q * n)) as [->|Hne].
    + rewrite Nat.mod_add, Nat.div_add, Nat.mod_small, Nat.div_small by lia. rewrite Nat.eqb_refl. cbn [andb].
      replace (0 + q <? q) with false by (symmetry; apply Nat.ltb_ge; lia). replace (0 + q <? S q) with true by (symmetry; apply Nat.ltb_lt; lia). lia.
    + destruct (Nat.eqb_spec (x mod n) s) as [E|E]; cbn [andb]; [|lia]. assert (x / n <> q) by (intros E2; apply Hne; rewrite E, E2 in DM; lia).
      destruct (Nat.ltb_spec (x / n) q), (Nat.ltb_spec (x / n) (S q)); lia.
  - intros d (I1 & I2). apply HQ; auto. intros x Hx. rewrite I2 by auto. assert (x / n < K) by (apply Nat.div_lt_upper_bound; lia).
    replace (x / n <? K) with true by (symmetry; apply Nat.ltb_lt; auto). now rewrite andb_true_r.
Qed.

Lemma count_map_add l off v : count_occ Nat.eq_dec (map (fun t => t + off) l) (v + off) = count_occ Nat.eq_dec l v.
Proof. induction l as [|a l IH]; [reflexivity|]. cbn [map count_occ]. destruct (Nat.eq_dec (a + off) (v + off)), (Nat.eq_dec a v); try lia; rewrite IH; auto. Qed.
Lemma count_le_length l v : count_occ Nat.eq_dec l v <= length l.
Proof. induction l as [|a l IH]; [auto|]. cbn [count_occ length]. destruct (Nat.eq_dec a v); lia. Qed.

Lemma tg_len lower sup Lp Li c : length (tg lower sup Lp Li c) <= Lp.[S c] - Lp.[c].
Proof. unfold tg, positions. rewrite map_length. destruct lower; rewrite ?rev_length, seq_length; lia. Qed.

Section Bn.
Variables (lower : bool) (n nodes K : nat) (Lp Li : list nat) (super : list Z) (sup : list nat).
Hypothesis CU : cutsZ lower n nodes super.
Hypothesis SU : sup_ok lower n nodes super sup.
Hypothesis W : wf_csc n Lp Li.
Hypothesis TR : tri_of lower n Lp Li.
Hypothesis K0 : 0 < K.
Hypothesis N0 : 0 < n.

Let ld := lead super.
Let succ0 c := tg lower sup Lp Li c.
Let nodes0 := map ld (seq 0 nodes).

Lemma bn_DF : lower = true -> diag_first n Lp Li.
Proof. intros E. unfold tri_of in TR. rewrite E in TR. tauto. Qed.

Lemma bn_degrees_wp (Q : list Z -> Prop) :
  (forall deg, length deg = K * n -> (forall x, x < K * n -> deg.[x] = ((if (x / n =? 0)%nat then 0 else memset_one) + Z.of_nat (cnt succ0 nodes0 (x mod n)))%Z) -> Q deg) ->
  wp (bn_degrees lower n K Lp Li sup super nodes) Q.
Proof.
  intros HQ. unfold bn_degrees.
  apply (wp_for (fun i deg => length deg = K * n /\ forall x, x < K * n -> deg.[x] = ((if (x / n =? 0)%nat then 0 else memset_one) + Z.of_nat (cnt succ0 (map ld (seq 0 i)) (x mod n)))%Z)); [lia| | |].
  - split; [rewrite app_length, !repeat_length; nia|]. intros x Hx. destruct (Nat.ltb_spec x n) as [H|H].
    + rewrite aget_app1 by (now rewrite repeat_length). rewrite aget_repeat by auto. rewrite Nat.div_small by auto. reflexivity.
    + rewrite aget_app2 by (rewrite repeat_length; lia). rewrite repeat_length, aget_repeat by nia.
      assert (0 < x / n) by (apply Nat.div_str_pos; lia). destruct (Nat.eqb_spec (x / n) 0); [lia|]. unfold cnt. cbn. lia.
  - intros i deg Hi (I1 & I2). wp1. apply (rd_node_wp lower n nodes super CU); [lia|].
    pose proof (lead_lt lower n nodes super CU i ltac:(lia)) as Hl. set (c := lead super i) in *.
    apply wp_bind, (bn_positions_wp lower); [destruct W; lia|]. apply wp_bind.
    apply (block_targets_wp lower n nodes super sup SU).
    { intros p Hp. destruct W as (W1 & W2 & W3 & W4 & W5). apply positions_In in Hp; [|now apply W3]. assert (Lp.[S c] <= Lp.[n]) by (apply (mono_le (aget Lp) n); auto).
      split; [lia|]. apply W5. lia. }
    assert (ET : map (fun p => sup.[Li.[p]] + 0) (positions lower Lp c) = succ0 c) by (unfold succ0, tg; apply map_ext; intros; lia). rewrite ET. clear ET.
    apply (wp_foreach (fun pre (d : list Z) => length d = K * n /\ forall x, x < K * n -> d.[x] = (deg.[x] + if (c =? x mod n)%nat then 0 else Z.of_nat (count_occ Nat.eq_dec pre (x mod n)%nat))%Z)).
    + split; auto. intros x Hx. destruct (c =? x mod n); cbn; lia.
    + intros pre t post d E (J1 & J2). assert (Ht : t < n).
      { destruct (tg_lead lower n nodes super sup CU SU Lp Li c t W Hl) as (s & Hs & ->); [|now apply (lead_lt lower n nodes super CU)]. fold (succ0 c). rewrite E. apply in_app_iff. right. now left. }
      destruct (Nat.eqb_spec c t) as [->|Hne].
      * wp1. split; auto. intros x Hx. rewrite J2 by auto. destruct (Nat.eqb_spec t (x mod n)); [reflexivity|]. rewrite count_occ_app. cbn [count_occ]. destruct (Nat.eq_dec t (x mod n)); [contradiction|]. lia.
      * apply bump_wp; auto. intros d' D1 D2. split; auto. intros x Hx. rewrite D2, J2 by auto. rewrite count_occ_app. cbn [count_occ].
        destruct (Nat.eqb_spec c (x mod n)), (Nat.eqb_spec (x mod n) t), (Nat.eq_dec t (x mod n)); try lia; congruence.
    + intros d (J1 & J2). split; auto. intros x Hx. rewrite J2, I2 by auto. rewrite seq_S, map_app, cnt_app. cbn [map]. rewrite cnt_one. unfold into.
      cbn [Nat.add]. change (ld i) with c.
 destruct (c =? x mod n); lia.
  - intros deg (I1 & I2). now apply HQ.
Qed.

(** the graph of copies *)
Let succ x := map (fun t => t + n * (x / n)) (succ0 (x mod n)).
Let ext x := if x / n + 1 <? K then [x - x / n * n + n * (x / n + 1)] else [].
Let nodesK := map (fun k => ld (k mod nodes) + n * (k / nodes)) (seq 0 (K * nodes)).

Lemma mod_add' t q : t < n -> (t + n * q) mod n = t /\ (t + n * q) / n = q.
Proof. intros Ht. rewrite (Nat.mul_comm n q), Nat.mod_add, Nat.div_add, Nat.mod_small, Nat.div_small by lia. lia. Qed.

Lemma nodesK_In x : In x nodesK <-> exists s q, s < nodes /\ q < K /\ x = ld s + n * q.
Proof.
  unfold nodesK. rewrite in_map_iff. split.
  - intros (k & <- & Hk). apply in_seq in Hk. exists (k mod nodes), (k / nodes). splits; auto; [apply Nat.mod_upper_bound; lia|apply Nat.div_lt_upper_bound; lia].
  - intros (s & q & Hs & Hq & ->). exists (s + q * nodes). rewrite Nat.mod_add, Nat.div_add, Nat.mod_small, Nat.div_small by lia. split; [f_equal; lia|]. apply in_seq. nia.
Qed.
Lemma nodesK_len : length nodesK = K * nodes.
Proof. unfold nodesK. now rewrite map_length, seq_length. Qed.
Lemma ld_lt s : s < nodes -> ld s < n. Proof. apply (lead_lt lower n nodes super CU). Qed.
Lemma nodesK_ND : NoDup nodesK.
Proof.
  apply NoDup_of_aget. rewrite nodesK_len. intros i j Hi Hj E. unfold nodesK in E. rewrite !aget_map_seq in E by lia. cbn [Nat.add] in E.
  assert (Hi' : i mod nodes < nodes) by (apply Nat.mod_upper_bound; lia). assert (Hj' : j mod nodes < nodes) by (apply Nat.mod_upper_bound; lia).
  destruct (mod_add' (ld (i mod nodes)) (i / nodes) (ld_lt _ Hi')) as [A1 A2]. destruct (mod_add' (ld (j mod nodes)) (j / nodes) (ld_lt _ Hj')) as [B1 B2].
  rewrite E in A1, A2. assert (E1 : ld (i mod nodes) = ld (j mod nodes)) by congruence. apply (lead_inj lower n nodes super CU) in E1; auto.
  assert (E2 : i / nodes = j / nodes) by congruence. pose proof (Nat.div_mod i nodes ltac:(lia)). pose proof (Nat.div_mod j nodes ltac:(lia)). congruence.
Qed.

Let eb u v := negb (u =? v) && existsb (Nat.eqb v) (succ0 u).
Lemma eb_iff u v : eb u v = true <-> u <> v /\ In v (succ0 u).
Proof.
  unfold eb. rewrite andb_true_iff, negb_true_iff, Nat.eqb_neq, existsb_exists. split; intros [H1 H2]; split; auto.
  - destruct H2 as (w & Hw & E). apply Nat.eqb_eq in E. now subst.
  - exists v. split; auto. apply Nat.eqb_refl.
Qed.
Lemma eb_lead s t : s < nodes -> t < nodes -> (eb (ld s) (ld t) = true <-> lead_edge lower nodes Lp Li super s t).
Proof.
  intros Hs Ht. rewrite eb_iff. pose proof (tg_In lower n nodes super sup CU SU Lp Li s (ld t) W bn_DF Hs) as T. fold ld in T. fold (succ0 (ld s)) in T. split.
  - intros [H1 H2]. destruct (proj1 T) as (t' & E & He); [split; auto|]. apply (lead_inj lower n nodes super CU) in E; auto; [now subst|]. destruct He as (_ & H & _). auto.
  - intros H. destruct (proj2 T) as [H1 H2]; [exists t; auto|]. split; auto.
Qed.
Let rank v := pos lower n v.
Lemma eb_rank u v : In u nodes0 -> In v nodes0 -> eb u v = true -> rank u < rank v.
Proof.
  intros Hu Hv He. apply leads_In in Hu, Hv. destruct Hu as (s & Hs & ->), Hv as (t & Ht & ->). fold ld in He. apply eb_lead in He; auto.
  pose proof (lead_edge_lt lower n nodes super CU Lp Li s t TR He) as L. unfold rank.
  pose proof (lead_has lower n nodes super CU s Hs) as A. pose proof (lead_has lower n nodes super CU t Ht) as B.
  apply (has_iff lower n nodes super CU) in A, B; auto; try now apply ld_lt. pose proof (cut_mono lower n nodes super CU (S s) t ltac:(lia) ltac:(lia)). lia.
Qed.

Definition bn_lev (c : nat) : nat := lev_of nodes0 eb rank c.

Lemma bn_lev_lt s t : lead_edge lower nodes Lp Li super s t -> bn_lev (ld s) < bn_lev (ld t).
Proof.
  intros He. assert (Hs : s < nodes) by apply He. assert (Ht : t < nodes) by apply He. apply (lev_of_lt nodes0 eb rank eb_rank).
  - apply leads_In. eauto.
  - apply leads_In. eauto.
  - now apply eb_lead.
Qed.
Lemma bn_lev_pred t : t < nodes -> 0 < bn_lev (ld t) -> exists s, lead_edge lower nodes Lp Li super s t /\ S (bn_lev (ld s)) = bn_lev (ld t).
Proof.
  intros Ht H. destruct (lev_of_pred nodes0 eb rank eb_rank (ld t)) as (u & U1 & U2 & U3); auto; [apply leads_In; eauto|].
  apply leads_In in U1. destruct U1 as (s & Hs & ->). exists s. split; auto. now apply eb_lead.
Qed.
Lemma bn_lev_le : forall t, t < nodes -> bn_lev (ld t) <= t.
Proof.
  intros t. induction t as [t IH] using lt_wf_ind. intros Ht. destruct (Nat.eq_dec (bn_lev (ld t)) 0); [lia|].
  destruct (bn_lev_pred t Ht ltac:(lia)) as (s & He & E). pose proof (lead_edge_lt lower n nodes super CU Lp Li s t TR He). specialize (IH s ltac:(lia) ltac:(lia)). lia.
Qed.
Lemma bn_lev_depth t : t < nodes -> depth_is (lead_edge lower nodes Lp Li super) t (bn_lev (ld t)).
Proof.
  intros Ht. split.
  - remember (bn_lev (ld t)) as d eqn:Ed. revert t Ht Ed. induction d as [|d IH]; intros t Ht Ed; [exists t; constructor|].
    destruct (bn_lev_pred t Ht ltac:(lia)) as (s & He & E). destruct (IH s) as (u & Hu); [apply He|lia|]. exists u. eapply chain_snoc; eauto.
  - intros u k Hc. enough (k + bn_lev (ld u) <= bn_lev (ld t)) by lia. clear Ht. induction Hc as [v|u v w k Hc IH He]; [lia|]. apply bn_lev_lt in He. lia.
Qed.

Let late x := negb (x / n =? 0).
Let lev x := bn_lev (x mod n) + x / n.

Lemma succ0_In s t' : s < nodes -> In t' (succ0 (ld s)) -> exists t, t < nodes /\ t' = ld t /\ (s = t \/ lead_edge lower nodes Lp Li super s t).
Proof.
  intros Hs H. destruct (tg_lead lower n nodes super sup CU SU Lp Li (ld s) t' W (ld_lt s Hs) H) as (t & Ht & ->). exists t. splits; auto.
  destruct (Nat.eq_dec s t) as [->|Hne]; [now left|right]. apply eb_lead; auto. apply eb_iff. split; auto. intros E. apply Hne. apply (lead_inj lower n nodes super CU); auto.
Qed.

Lemma cnt_copy s q : s < nodes -> q < K -> cnt succ nodesK (ld s + n * q) = cnt succ0 nodes0 (ld s).
Proof.
  intros Hs Hq. rewrite <- (cnt_all succ nodesK nodesK_ND (map (fun c => c + n * q) nodes0)).
  - unfold cnt. f_equal. rewrite map_map. apply map_ext_in. intros c Hc. apply leads_In in Hc. destruct Hc as (s' & Hs' & ->). fold ld. unfold into.
    destruct (mod_add' (ld s') q (ld_lt s' Hs')) as [A B]. unfold succ. rewrite A, B. rewrite count_map_add.
    destruct (Nat.eqb_spec (ld s' + n * q) (ld s + n * q)), (Nat.eqb_spec (ld s') (ld s)); auto; lia.
  - apply NoDup_of_aget. unfold nodes0. rewrite !map_length, seq_length. intros i j Hi Hj E. rewrite map_map, !aget_map_seq in E by lia. cbn [Nat.add] in E.
    apply (lead_inj lower n nodes super CU); auto. fold ld. lia.
  - intros x Hx. apply in_map_iff in Hx. destruct Hx as (c & <- & Hc). apply leads_In in Hc. destruct Hc as (s' & Hs' & ->). apply nodesK_In. exists s', q. auto.
  - intros u Hu Hne Hin. apply nodesK_In in Hu. destruct Hu as (s' & q' & Hs' & Hq' & ->). apply in_map_iff. exists (ld s'). split; [|apply leads_In; eauto].
    destruct (mod_add' (ld s') q' (ld_lt s' Hs')) as [A B]. unfold succ in Hin. rewrite A, B in Hin. apply in_map_iff in Hin. destruct Hin as (t' & E & Ht').
    destruct (succ0_In s' t' Hs' Ht') as (t & Ht & -> & _). destruct (mod_add' (ld t) q' (ld_lt t Ht)) as [A1 B1]. destruct (mod_add' (ld s) q (ld_lt s Hs)) as [A2 B2].
    rewrite E in A1, B1. congruence.
Qed.

Lemma succ0_len c : length (succ0 c) <= Lp.[S c] - Lp.[c].
Proof. apply tg_len. Qed.

Hypothesis SMALL : 1 < K -> forall c, c < n -> (Z.of_nat (Lp.[S c] - Lp.[c]) < 16843008)%Z.

Lemma bn_levels_wp (Q : nat * (list nat * list nat) -> Prop) :
  (forall Ls lp ls, (forall l x, l < length Ls -> (In x Ls.[l] <-> exists s q, s < nodes /\ q < K /\ x = ld s + n * q /\ l = bn_lev (ld s) + q)) ->
     (forall s q, s < nodes -> q < K -> bn_lev (ld s) + q < length Ls) -> NoDup (concat Ls) -> length (concat Ls) = K * nodes ->
     (forall l, l < length Ls -> Ls.[l] <> []) -> rep Ls lp ls -> length lp = S (length Ls) -> length ls = K * nodes -> Q (length Ls, (lp, ls))) ->
  wp (deg <- bn_degrees lower n K Lp Li sup super nodes ;;
      '(queue, inq) <- fuse_sources super nodes deg (repeat false (K * n)) ;;
      fuse_levels (bn_targets lower n Lp Li sup) (bn_extra n K) deg (K * n) (K * nodes) (K * nodes + 1) queue inq) Q.
Proof.
  intros HQ. wp1. apply bn_degrees_wp. intros deg D1 D2. wp1.
  assert (CO : forall x, In x nodesK -> exists s q, s < nodes /\ q < K /\ x = ld s + n * q /\ x mod n = ld s /\ x / n = q /\ x < K * n).
  { intros x Hx. apply nodesK_In in Hx. destruct Hx as (s & q & Hs & Hq & ->). exists s, q. destruct (mod_add' (ld s) q (ld_lt s Hs)). pose proof (ld_lt s Hs). splits; auto. nia. }
  apply (fuse_sources_wp lower n nodes super deg (K * n) _ CU); [nia|auto|]. intros q0 inq Q1 Q2 Q3 Q4.
  apply (levels_wp (K * n) nodesK succ ext deg late lev (bn_targets lower n Lp Li sup) (bn_extra n K)).
  - apply nodesK_ND.
  - intros v Hv. destruct (CO v Hv) as (s & q & Hs & Hq & E & _ & _ & B). auto.
  - intros v Hv. destruct (CO v Hv) as (s & q & Hs & Hq & E & EM & ED & B). unfold bn_targets. cbv zeta. rewrite ED.
    replace (v - q * n) with (ld s) by (rewrite E; lia).
    pose proof (tg_wp lower n nodes super sup SU Lp Li (n * q) (ld s) (fun r => r = succ v) W (ld_lt s Hs)) as T. unfold wp in T.
    unfold succ in T at 1. rewrite EM, ED in T. specialize (T eq_refl). destruct (ps <- _ ;; _); [now rewrite T|contradiction].
  - intros v Hv. reflexivity.
  - intros u v Hu Hv. destruct (CO u Hu) as (s & q & Hs & Hq & E & EM & ED & B). unfold succ in Hv. rewrite EM, ED in Hv. apply in_map_iff in Hv.
    destruct Hv as (t' & <- & Ht'). destruct (succ0_In s t' Hs Ht') as (t & Ht & -> & _). apply nodesK_In. exists t, q. auto.
  - auto.
  - intros v Hv HL. destruct (CO v Hv) as (s & q & Hs & Hq & E & EM & ED & B). rewrite D2, EM, ED by auto. unfold late in HL. rewrite ED in HL.
    destruct (q =? 0); [|discriminate]. rewrite E, cnt_copy by auto. lia.
  - intros v Hv HL. destruct (CO v Hv) as (s & q & Hs & Hq & E & EM & ED & B). rewrite D2, EM, ED by auto. unfold late in HL. rewrite ED in HL.
    destruct (Nat.eqb_spec q 0); [discriminate|]. rewrite E, cnt_copy by auto. rewrite <- E.
    assert (C : count_occ Nat.eq_dec (succ v) v <= length (succ0 (ld s))) by (apply (Nat.le_trans _ (length (succ v))); [apply count_le_length|]; change (succ v) with (map (fun t => t + n * (v / n)) (succ0 (v mod n))); rewrite EM, map_length; auto).
    pose proof (ld_lt s Hs) as Hl. pose proof (SMALL ltac:(lia) (ld s) Hl) as SM. pose proof (succ0_len (ld s)). unfold memset_one. lia.
  - intros u v Hu Hv Hne. destruct (CO u Hu) as (s & q & Hs & Hq & E & EM & ED & B). unfold succ in Hv. rewrite EM, ED in Hv. apply in_map_iff in Hv.
    destruct Hv as (t' & <- & Ht'). destruct (succ0_In s t' Hs Ht') as (t & Ht & -> & [<-|He]); [exfalso; auto|]. unfold lev. destruct (mod_add' (ld t) q (ld_lt t Ht)) as [-> ->].
    rewrite EM, ED. apply bn_lev_lt in He. lia.
  - intros v Hv HL Hlev. destruct (CO v Hv) as (s & q & Hs & Hq & E & EM & ED & B). unfold late in HL. rewrite ED in HL. destruct (Nat.eqb_spec q 0) as [Q0|]; [|discriminate]. rewrite Q0 in *.
    unfold lev in Hlev |- *. rewrite EM, ED in *. destruct (bn_lev_pred s Hs ltac:(lia)) as (s' & He & E'). assert (Hs' : s' < nodes) by apply He.
    exists (ld s'). apply eb_lead in He; auto. apply eb_iff in He. destruct He as [H1 H2].
    destruct (mod_add' (ld s') 0 (ld_lt s' Hs')) as [A1 A2]. rewrite Nat.mul_0_r, Nat.add_0_r in A1, A2. splits.
    + apply nodesK_In. exists s', 0. splits; auto. lia.
    + rewrite E. lia.
    + unfold succ. rewrite A1, A2, E. apply in_map_iff. exists (ld s). auto.
    + rewrite A1, A2. lia.
  - intros u v Hu Hv. destruct (CO u Hu) as (s & q & Hs & Hq & E & EM & ED & B). unfold ext in Hv. rewrite ED in Hv. destruct (Nat.ltb_spec (q + 1) K); [|contradiction].
    destruct Hv as [<-|[]]. replace (u - q * n) with (ld s) by lia. destruct (mod_add' (ld s) (q + 1) (ld_lt s Hs)) as [A1 A2]. splits.
    + apply nodesK_In. exists s, (q + 1). auto.
    + unfold late. rewrite A2. apply negb_true_iff, Nat.eqb_neq. lia.
    + unfold lev. rewrite A1, A2, EM, ED. lia.
  - intros u u' v Hu Hu' Hv Hv'. destruct (CO u Hu) as (s & q & Hs & Hq & E & EM & ED & B). destruct (CO u' Hu') as (s' & q' & Hs' & Hq' & E' & EM' & ED' & B').
    unfold ext in Hv, Hv'. rewrite ED in Hv. rewrite ED' in Hv'. destruct (q + 1 <? K); [|contradiction]. destruct (q' + 1 <? K); [|contradiction].
    destruct Hv as [<-|[]], Hv' as [HE|[]]. replace (u - q * n) with (ld s) in HE by lia. replace (u' - q' * n) with (ld s') in HE by lia.
    destruct (mod_add' (ld s) (q + 1) (ld_lt s Hs)) as [A1 A2]. destruct (mod_add' (ld s') (q' + 1) (ld_lt s' Hs')) as [A3 A4]. rewrite HE in A3, A4.
    assert (ld s = ld s') by congruence. assert (q = q') by lia. congruence.
  - intros u Hu. unfold ext. destruct (_ <? K); [constructor; [intros []|constructor]|constructor].
  - intros v Hv HL. destruct (CO v Hv) as (s & q & Hs & Hq & E & EM & ED & B). unfold late in HL. rewrite ED in HL. destruct (Nat.eqb_spec q 0); [discriminate|].
    exists (ld s + n * (q - 1)). destruct (mod_add' (ld s) (q - 1) (ld_lt s Hs)) as [A1 A2]. split; [apply nodesK_In; exists s, (q - 1); splits; auto; lia|].
    unfold ext. rewrite A2. replace (q - 1 + 1 <? K) with true by (symmetry; apply Nat.ltb_lt; lia). left. rewrite E. replace (q - 1 + 1) with q by lia. nia.
  - now rewrite nodesK_len.
  - intros v Hv. destruct (CO v Hv) as (s & q & Hs & Hq & E & EM & ED & B). unfold lev. rewrite EM, ED. pose proof (bn_lev_le s Hs). nia.
  - lia.
  - auto.
  - intros v. rewrite Q2. split.
    + intros (s & Hs & -> & E0). destruct (mod_add' (ld s) 0 (ld_lt s Hs)) as [A1 A2]. rewrite Nat.mul_0_r, Nat.add_0_r in A1, A2. change (lead super s) with (ld s) in *.
      pose proof (ld_lt s Hs). split; [apply nodesK_In; exists s, 0; splits; auto; lia|]. rewrite D2, A1, A2 in E0 by nia. cbn [Nat.eqb] in E0.
      unfold lev. rewrite A1, A2. destruct (Nat.eq_dec (bn_lev (ld s)) 0) as [->|]; [reflexivity|]. exfalso. destruct (bn_lev_pred s Hs ltac:(lia)) as (u & He & _).
      assert (Hu : u < nodes) by apply He. apply eb_lead in He; auto. apply eb_iff, into_pos in He.
      pose proof (cnt_ge succ0 nodes0 (ld u) (ld s) ltac:(apply leads_In; eauto)). lia.
    + intros [Hv HL]. destruct (CO v Hv) as (s & q & Hs & Hq & E & EM & ED & B). unfold lev in HL. rewrite EM, ED in HL. assert (Q0 : q = 0) by lia. rewrite Q0 in *.
      rewrite Nat.mul_0_r, Nat.add_0_r in E. exists s. splits; auto. rewrite D2, EM, ED by auto. cbn [Nat.eqb].
      rewrite (cnt_zero succ0); [reflexivity|]. intros u Hu. apply leads_In in Hu. destruct Hu as (s' & Hs' & ->). fold ld.
      destruct (Nat.eq_dec (into succ0 (ld s) (ld s')) 0); auto. exfalso. pose proof (proj1 (into_pos succ0 (ld s') (ld s)) ltac:(lia)) as I. apply eb_iff in I. apply eb_lead in I; auto.
      apply bn_lev_lt in I. lia.
  - auto.
  - intros v Hv. apply Q4. destruct (CO v Hv) as (s & q & Hs & Hq & E & EM & ED & B). auto.
  - intros Ls lp ls L1 L2 L3 L4 L5 L6 L7 L8. rewrite nodesK_len in L4. apply HQ; auto.
    + intros l x Hl. rewrite (L1 l x Hl). split.
      * intros [Hx HL]. destruct (CO x Hx) as (s & q & Hs & Hq & E & EM & ED & B). exists s, q. unfold lev in HL. rewrite EM, ED in HL. auto.
      * intros (s & q & Hs & Hq & -> & ->). destruct (mod_add' (ld s) q (ld_lt s Hs)) as [A1 A2]. split; [apply nodesK_In; eauto|]. unfold lev. now rewrite A1, A2.
    + intros s q Hs Hq. destruct (mod_add' (ld s) q (ld_lt s Hs)) as [A1 A2]. specialize (L2 (ld s + n * q)). unfold lev in L2. rewrite A1, A2 in L2. apply L2. apply nodesK_In. eauto.
Qed.
End Bn.
