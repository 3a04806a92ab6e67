(** find, and bcsc_csc_bcsc_levelset. *)
From Verif Require Import Base Lib Lib2 Spec SpecFuse L_LBC5 M_Multi M_Fuse L_Bfs L_Fuse L_Fuse2.
From Verif Require P_Tree.
From Coq Require Import ZifyBool ZifyNat.

Lemma find_block_ok super nodes k : nodes < length super -> (forall s, s < nodes -> (super.[s] < super.[S s])%Z) ->
  forall fuel first last, first <= k <= last -> last <= nodes -> last - first < fuel -> find_block fuel super first last super.[k] = Ok k.
Proof.
  intros HL HM. assert (M : forall a b, a < b -> b <= nodes -> (super.[a] < super.[b])%Z).
  { intros a b Hab. induction b as [|b IH]; intros Hb; [lia|]. pose proof (HM b ltac:(lia)). destruct (Nat.eq_dec a b) as [->|]; [auto|]. specialize (IH ltac:(lia) ltac:(lia)). lia. }
  assert (D : forall a, a <= nodes -> k <= nodes -> (super.[a] = super.[k] -> a = k) /\ ((super.[k] < super.[a])%Z -> k < a) /\ (~ (super.[k] <= super.[a])%Z -> a < k)).
  { intros a Ha Hk. destruct (Nat.lt_trichotomy a k) as [H|[->|H]]; [pose proof (M a k H Hk)|auto|pose proof (M k a H Ha)]; splits; intros; lia. }
  induction fuel as [|fuel IH]; intros first last Hk Hl Hf; [lia|]. cbn [find_block].
  destruct (D first ltac:(lia) ltac:(lia)) as (D1 & D2 & D3). destruct (D last ltac:(lia) ltac:(lia)) as (D4 & D5 & D6).
  destruct (Nat.eqb_spec first last) as [->|Hne].
  - assert (E : last = k) by lia. rewrite rd_ok by lia. cbn [bind]. rewrite E, Z.eqb_refl. reflexivity.
  - cbn [bind]. destruct (Nat.eqb_spec last (S first)) as [E|E].
    + rewrite rd_ok by lia. cbn [bind]. destruct (Z.eqb_spec super.[first] super.[k]) as [E1|E1]; [cbn [bind]; f_equal; auto|].
      rewrite rd_ok by lia. cbn [bind]. destruct (Z.eqb_spec super.[last] super.[k]) as [E2|E2]; [cbn [bind]; f_equal; auto|]. exfalso.
      assert (k = first \/ k = last) as [->| ->] by lia; auto.
    + cbn [bind]. cbv zeta. assert (B : first < (last + first) / 2 < last).
      { split; [apply Nat.div_le_lower_bound; lia|apply Nat.div_lt_upper_bound; lia]. }
      set (m := (last + first) / 2) in *. destruct (D m ltac:(lia) ltac:(lia)) as (D7 & D8 & D9). rewrite rd_ok by lia. cbn [bind].
      destruct (Z.eqb_spec super.[m] super.[k]) as [E1|E1]; [f_equal; auto|]. destruct (Z.ltb_spec super.[k] super.[m]) as [E2|E2].
      * apply IH; [specialize (D8 E2); lia|lia|lia].
      * apply IH; [assert (m < k) by (apply D9; lia); lia|lia|lia].
Qed.

(** an absent target: no number of calls is enough *)
Lemma find_block_absent super target : forall fuel first last, first <= last < length super -> (forall i, first <= i <= last -> super.[i] <> target) ->
  find_block fuel super first last target = Err Fuel.
Proof.
  induction fuel as [|fuel IH]; intros first last HL HA; [reflexivity|]. cbn [find_block].
  assert (E1 : (if first =? last then v <- rd super first;; Ok (v =? target)%Z else Ok false) = Ok false).
  { destruct (first =? last); auto. rewrite rd_ok by lia. cbn [bind]. f_equal. apply Z.eqb_neq. apply HA. lia. }
  rewrite E1. cbn [bind].
  assert (E2 : (if last =? S first then v <- rd super first;; if (v =? target)%Z then Ok (Some first) else w <- rd super last;; if (w =? target)%Z then Ok (Some last) else Ok None else Ok None) = Ok None).
  { destruct (last =? S first); auto. rewrite !rd_ok by lia. cbn [bind]. rewrite !(proj2 (Z.eqb_neq _ _)) by (apply HA; lia). reflexivity. }
  rewrite E2. cbn [bind]. cbv zeta. assert (B : first <= (last + first) / 2 <= last).
  { split; [apply Nat.div_le_lower_bound; lia|apply Nat.div_le_upper_bound; lia]. }
  set (m := (last + first) / 2) in *. rewrite rd_ok by lia. cbn [bind]. rewrite (proj2 (Z.eqb_neq _ _)) by (apply HA; lia).
  destruct (target <? super.[m])%Z; apply IH; try lia; intros i Hi; apply HA; lia.
Qed.

Lemma bump1_wp (deg : list Z) n s off ts c (own : bool) (Q : list Z -> Prop) : length deg = 2 * n -> off + n <= 2 * n -> (forall t, In t ts -> t < n) -> s < n ->
  c = (if own then s else n) ->
  (forall d, length d = 2 * n -> (forall x, x < 2 * n -> d.[x] = (deg.[x] + if ((off <=? x) && (x <? off + n) && negb (c =? x - off))%nat then Z.of_nat (count_occ Nat.eq_dec ts (x - off)%nat) else 0)%Z) -> Q d) ->
  wp (foreach ts (fun t deg => if c =? t then Ok deg else d <- rd deg (t + off) ;; wr deg (t + off) (d + 1)%Z) deg) Q.
Proof.
  intros HD HO HT Hs Hc HQ.
  apply (wp_foreach (fun pre (d : list Z) => length d = 2 * n /\ forall x, x < 2 * n -> d.[x] = (deg.[x] + if ((off <=? x) && (x <? off + n) && negb (c =? x - off))%nat then Z.of_nat (count_occ Nat.eq_dec pre (x - off)%nat) else 0)%Z)).
  - split; auto. intros x Hx. destruct (_ && _); cbn; lia.
  - intros pre t post d E (I1 & I2). assert (Ht : t < n) by (apply HT; rewrite E; apply in_app_iff; right; now left).
    destruct (Nat.eqb_spec c t) as [Ec|Ec].
    + wp1. split; auto. intros x Hx. rewrite I2 by auto. destruct (_ && _) eqn:EB; auto. rewrite count_occ_app. cbn [count_occ]. destruct (Nat.eq_dec t (x - off)); lia.
    + wp1. wp1; [lia|]. wp1; [lia|]. rewrite upd_length. split; auto. intros x Hx. rewrite aget_upd by lia. rewrite !I2 by lia. rewrite count_occ_app. cbn [count_occ].
      destruct (Nat.eqb_spec x (t + off)) as [->|Hne].
      * replace (t + off - off) with t by lia. destruct (Nat.eq_dec t t); [|contradiction]. destruct (_ && _) eqn:EB; lia.
      * destruct (_ && _) eqn:EB; auto. destruct (Nat.eq_dec t (x - off)); lia.
  - intros d (I1 & I2). now apply HQ.
Qed.

Lemma foreach_ext_in {A B : Type} (l : list A) (f g : A -> B -> res B) s : (forall x s, In x l -> f x s = g x s) -> foreach l f s = foreach l g s.
Proof.
  revert s. induction l as [|x l IH]; intros s H; [reflexivity|]. cbn [foreach]. rewrite (H x s) by now left. destruct (g x s); [|reflexivity]. cbn [bind].
  apply IH. intros y s' Hy. apply H. now right.
Qed.

Lemma seq_plus a k m : seq (a + k) m = map (fun s => a + s) (seq k m).
Proof. revert k. induction m as [|m IH]; intros k; [reflexivity|]. cbn [seq map]. f_equal. rewrite <- Nat.add_succ_r. apply IH. Qed.

Section Fused.
Variables (n nodes : nat) (Ap Ai Bp Bi Cp Ci : list nat) (super : list Z) (sup : list nat).
Hypothesis CU : cutsZ true n nodes super.
Hypothesis SU : sup_ok true n nodes super sup.
Hypothesis WA : wf_csc n Ap Ai.
Hypothesis WB : wf_csc n Bp Bi.
Hypothesis WC : wf_csc n Cp Ci.
Hypothesis TA : tri_of true n Ap Ai.
Hypothesis TC : tri_of true n Cp Ci.
Hypothesis N0 : 0 < n.

Let ld := lead super.
Let sA c := tg true sup Ap Ai c.
Let sC c := tg true sup Cp Ci c.
Let bpos s := let a := Bp.[ld s] in let b := Bp.[Z.to_nat super.[S s]] in seq a (b - a).
Let sB s := map (fun p => sup.[Bi.[p]]) (bpos s).
Let sumB i t := list_sum (map (fun s => count_occ Nat.eq_dec (sB s) t) (seq 0 i)).
Let heads := map ld (seq 0 nodes).

Lemma fl s : s < nodes -> ld s < n. Proof. apply (lead_lt true n nodes super CU). Qed.
Lemma next_ok s : s < nodes -> super.[S s] = Z.of_nat (Z.to_nat super.[S s]) /\ Z.to_nat super.[S s] <= n /\ ld s < Z.to_nat super.[S s].
Proof.
  intros Hs. destruct (cut_facts true n nodes super CU) as (_ & _ & _ & _ & C). destruct (cut_lt true n nodes super CU s Hs).
  unfold ld, lead. rewrite !C by lia. lia.
Qed.
Lemma bpos_lt s p : s < nodes -> In p (bpos s) -> p < length Bi /\ Bi.[p] < n.
Proof.
  intros Hs Hp. pose proof WB as (W1 & W2 & W3 & W4 & W5). unfold bpos in Hp. cbv zeta in Hp. apply in_seq in Hp. destruct (next_ok s Hs) as (_ & L & _).
  assert (Bp.[Z.to_nat super.[S s]] <= Bp.[n]) by (apply (mono_le (aget Bp) n); auto). split; [lia|]. apply W5. lia.
Qed.
Lemma bpos_In s p : s < nodes -> (In p (bpos s) <-> exists u, block_has true super s u /\ Bp.[u] <= p < Bp.[S u]).
Proof.
  intros Hs. pose proof WB as (W1 & W2 & W3 & W4 & W5). destruct (next_ok s Hs) as (L0 & L & L'). pose proof (lead_pos true n nodes super CU s Hs) as LP. fold ld in LP.
  assert (M : forall a b, a <= b -> b <= n -> Bp.[a] <= Bp.[b]) by (intros; apply (mono_le (aget Bp) n); auto).
  unfold bpos. cbv zeta. rewrite in_seq. unfold block_has. rewrite L0, LP. rewrite !Nat2Z.id. split.
  - intros Hp. destruct (bucket_exists (fun i => Bp.[ld s + i]) (Z.to_nat super.[S s] - ld s) p) as (i & Hi & H').
    + rewrite Nat.add_0_r. lia.
    + replace (ld s + (Z.to_nat super.[S s] - ld s)) with (Z.to_nat super.[S s]) by lia. lia.
    + cbv beta in H'. rewrite Nat.add_succ_r in H'. exists (ld s + i). split; [lia|auto].
  - intros (u & Hu & Hp). pose proof (M (ld s) u ltac:(lia) ltac:(lia)). pose proof (M (S u) (Z.to_nat super.[S s]) ltac:(lia) ltac:(lia)). lia.
Qed.
Lemma sB_In s t' : s < nodes -> (In t' (sB s) <-> exists t, t < nodes /\ t' = ld t /\ fused_edge nodes Ap Ai Bp Bi Cp Ci super s (nodes + t)).
Proof.
  intros Hs. destruct SU as [S1 S2]. unfold sB. rewrite in_map_iff. split.
  - intros (p & <- & Hp). destruct (bpos_lt s p Hs Hp) as [_ Hv]. apply bpos_In in Hp; auto. destruct Hp as (u & Hu & Hp).
    destruct (block_of true n nodes super CU _ Hv) as (t & Ht & Hb). exists t. split; [auto|]. split; [now apply S2|]. right. left. split; [auto|]. split; [lia|].
    exists u, Bi.[p]. split; [auto|]. split; [exists p; auto|]. now replace (nodes + t - nodes) with t by lia.
  - intros (t & Ht & -> & [H|[(_ & _ & u & v & H1 & (p & H2 & <-) & H3)|(H & _)]]).
    + destruct H as (_ & H & _). lia.
    + replace (nodes + t - nodes) with t in H3 by lia. exists p. split; [now apply S2|]. apply bpos_In; auto. exists u. auto.
    + lia.
Qed.
Lemma sB_lt s t' : s < nodes -> In t' (sB s) -> t' < n.
Proof. intros Hs H. apply sB_In in H; auto. destruct H as (t & Ht & -> & _). now apply fl. Qed.
Lemma tg_lt Lp Li c t' : wf_csc n Lp Li -> c < n -> In t' (tg true sup Lp Li c) -> t' < n.
Proof. intros W Hc H. destruct (tg_lead true n nodes super sup CU SU Lp Li c t' W Hc H) as (t & Ht & ->). now apply fl. Qed.

Lemma tg_pos_ok Lp Li c : wf_csc n Lp Li -> c < n -> forall p, In p (positions true Lp c) -> p < length Li /\ Li.[p] < n.
Proof.
  intros (W1 & W2 & W3 & W4 & W5) Hc p Hp. apply positions_In in Hp; [|now apply W3]. assert (Lp.[S c] <= Lp.[n]) by (apply (mono_le (aget Lp) n); auto).
  split; [lia|]. apply W5. lia.
Qed.

Lemma bcb_degrees_wp (Q : list Z -> Prop) :
  (forall deg, length deg = 2 * n -> (forall t, t < n -> deg.[t] = Z.of_nat (cnt sA heads t)) -> (forall t, t < n -> deg.[t + n] = Z.of_nat (cnt sC heads t + sumB nodes t)) -> Q deg) ->
  wp (bcb_degrees n nodes Ap Ai Bp Bi Cp Ci sup super) Q.
Proof.
  intros HQ. unfold bcb_degrees. wp1.
  apply (wp_for (fun i deg => length deg = 2 * n /\ (forall t, t < n -> deg.[t] = Z.of_nat (cnt sA (map ld (seq 0 i)) t)) /\ (forall t, t < n -> deg.[t + n] = Z.of_nat (cnt sC (map ld (seq 0 i)) t)))); [lia| | |].
  - split; [apply repeat_length|]. split; intros t Ht; rewrite aget_repeat by lia; reflexivity.
  - intros i deg Hi (I1 & I2 & I3). wp1. apply (rd_node_wp true n nodes super CU); [lia|]. pose proof (fl i ltac:(lia)) as Hl. change (lead super i) with (ld i). set (c := ld i) in *.
    apply wp_bind, (bn_positions_wp true); [destruct WA; lia|]. apply wp_bind, (block_targets_wp true n nodes super sup SU); [now apply tg_pos_ok|].
    replace (map (fun p => sup.[Ai.[p]] + 0) (positions true Ap c)) with (sA c) by (unfold sA, tg; apply map_ext; intros; lia).
    rewrite (foreach_ext_in (sA c) _ (fun t deg => if c =? t then Ok deg else d <- rd deg (t + 0) ;; wr deg (t + 0) (d + 1)%Z)) by (intros; now rewrite Nat.add_0_r).
    apply wp_bind, (bump1_wp deg n c 0 (sA c) c true); auto; [lia|intros t; apply (tg_lt Ap Ai); auto|]. intros d D1 D2.
    apply wp_bind, (bn_positions_wp true); [destruct WC; lia|]. apply wp_bind, (block_targets_wp true n nodes super sup SU); [now apply tg_pos_ok|].
    replace (map (fun p => sup.[Ci.[p]] + 0) (positions true Cp c)) with (sC c) by (unfold sC, tg; apply map_ext; intros; lia).
    apply (bump1_wp d n c n (sC c) c true); auto; [lia|intros t; apply (tg_lt Cp Ci); auto|]. intros d' D3 D4. split; auto.
    rewrite seq_S, map_app. cbn [map Nat.add]. change (ld i) with c. split; intros t Ht.
    + rewrite cnt_app, cnt_one. rewrite D4, D2, I2 by lia. rewrite !Nat.sub_0_r. unfold into.
      replace ((n <=? t) && (t <? n + n) && negb (c =? t - n))%nat with false by (symmetry; rewrite !andb_false_iff, Nat.leb_gt; auto).
      replace ((0 <=? t) && (t <? 0 + n))%nat with true by (symmetry; rewrite andb_true_iff, Nat.leb_le, Nat.ltb_lt; lia). cbn [andb].
      destruct (c =? t); cbn [negb]; lia.
    + rewrite cnt_app, cnt_one. rewrite D4, D2, I3 by lia. unfold into. replace (t + n - n) with t by lia.
      replace ((n <=? t + n) && (t + n <? n + n))%nat with true by (symmetry; rewrite andb_true_iff, Nat.leb_le, Nat.ltb_lt; lia).
      replace ((0 <=? t + n) && (t + n <? 0 + n))%nat with false by (symmetry; rewrite andb_false_iff, Nat.ltb_ge; lia). cbn [andb].
      destruct (c =? t); cbn [negb]; lia.
  - intros deg (I1 & I2 & I3).
    apply (wp_for (fun i deg => length deg = 2 * n /\ (forall t, t < n -> deg.[t] = Z.of_nat (cnt sA heads t)) /\ (forall t, t < n -> deg.[t + n] = Z.of_nat (cnt sC heads t + sumB i t)))); [lia| | |].
    + splits; auto. intros t Ht. rewrite I3 by auto. unfold sumB. cbn. now rewrite Nat.add_0_r.
    + clear deg I1 I2 I3. intros i deg Hi (I1 & I2 & I3). wp1. apply (rd_node_wp true n nodes super CU); [lia|]. pose proof (fl i ltac:(lia)) as Hl. change (lead super i) with (ld i).
      destruct (next_ok i ltac:(lia)) as (E1 & E2 & E3). destruct (cut_facts true n nodes super CU) as (_ & _ & _ & SL & _).
      apply wp_bind. unfold rd_node at 1. wp1. wp1; [lia|]. destruct (Z.ltb_spec super.[S i] 0); [lia|]. wp1.
      wp1. wp1; [destruct WB; lia|]. wp1. wp1; [destruct WB; lia|]. wp1. change (seq Bp.[ld i] (Bp.[Z.to_nat super.[S i]] - Bp.[ld i])) with (bpos i).
      apply (block_targets_wp true n nodes super sup SU); [intros p; apply bpos_lt; lia|].
      replace (map (fun p => sup.[Bi.[p]] + 0) (bpos i)) with (sB i) by (unfold sB; apply map_ext; intros; lia).
      rewrite (foreach_ext_in (sB i) _ (fun t deg => if n =? t then Ok deg else d <- rd deg (t + n) ;; wr deg (t + n) (d + 1)%Z)).
      2:{ intros t d Ht. pose proof (sB_lt i t ltac:(lia) Ht). destruct (Nat.eqb_spec n t); [lia|reflexivity]. }
      apply (bump1_wp deg n 0 n (sB i) n false); auto; [lia|intros t; apply sB_lt; lia|]. intros d D1 D2. splits; auto.
      * intros t Ht. rewrite D2, I2 by lia. replace ((n <=? t) && (t <? n + n) && negb (n =? t - n))%nat with false by (symmetry; rewrite !andb_false_iff, Nat.leb_gt; auto). lia.
      * intros t Ht. rewrite D2, I3 by lia. unfold sumB. rewrite seq_S, map_app, list_sum_app'. cbn [map Nat.add list_sum fold_right]. replace (t + n - n) with t by lia.
        replace ((n <=? t + n) && (t + n <? n + n) && negb (n =? t))%nat with true; [lia|]. symmetry. rewrite !andb_true_iff, Nat.leb_le, Nat.ltb_lt, negb_true_iff, Nat.eqb_neq. lia.
    + clear deg I1 I2 I3. intros deg (I1 & I2 & I3). now apply HQ.
Qed.

Variable fuel : nat.
Hypothesis FU : nodes < fuel.
Let cd := code n nodes super.
Let nodes2 := map cd (seq 0 (2 * nodes)).
Let sBc x := match find_block fuel super 0 nodes (Z.of_nat x) with Ok k => sB k | Err _ => [] end.
Let succ x := if x / n =? 0 then sA x ++ map (fun t => t + n) (sBc x) else map (fun t => t + n) (sC (x - n)).
Notation fe := (fused_edge nodes Ap Ai Bp Bi Cp Ci super).

Lemma find_ld s : s < nodes -> find_block fuel super 0 nodes (Z.of_nat (ld s)) = Ok s.
Proof.
  intros Hs. pose proof CU as (C1 & C2 & C3 & C4). change (ld s) with (lead super s). rewrite <- (lead_pos true n nodes super CU s Hs). apply (find_block_ok super nodes s C1 C4); lia.
Qed.
Lemma cd1 s : s < nodes -> cd s = ld s.
Proof. intros H. unfold cd, code. destruct (Nat.ltb_spec s nodes); [auto|lia]. Qed.
Lemma cd2 s : cd (nodes + s) = ld s + n.
Proof. unfold cd, code. destruct (Nat.ltb_spec (nodes + s) nodes); [lia|]. now replace (nodes + s - nodes) with s by lia. Qed.
Lemma succ1 s : s < nodes -> succ (ld s) = sA (ld s) ++ map (fun t => t + n) (sB s).
Proof. intros Hs. unfold succ, sBc. rewrite Nat.div_small by now apply fl. cbn [Nat.eqb]. now rewrite find_ld. Qed.
Lemma succ2 s : s < nodes -> succ (ld s + n) = map (fun t => t + n) (sC (ld s)).
Proof.
  intros Hs. pose proof (fl s Hs). unfold succ. replace ((ld s + n) / n) with 1; [cbn [Nat.eqb]; now replace (ld s + n - n) with (ld s) by lia|].
  replace (ld s + n) with (ld s + 1 * n) by lia. rewrite Nat.div_add, Nat.div_small by lia. reflexivity.
Qed.
Lemma two x : x < 2 * nodes -> (x < nodes /\ cd x = ld x) \/ (exists s, s < nodes /\ x = nodes + s /\ cd x = ld s + n).
Proof.
  intros Hx. destruct (Nat.ltb_spec x nodes); [left; split; auto; now apply cd1|right]. exists (x - nodes). splits; try lia.
  rewrite <- cd2. f_equal. lia.
Qed.
Lemma cd_lt x : x < 2 * nodes -> cd x < 2 * n.
Proof. intros Hx. destruct (two x Hx) as [[H ->]|(s & H & _ & ->)]; pose proof (fl _ H); lia. Qed.
Lemma cd_inj x y : x < 2 * nodes -> y < 2 * nodes -> cd x = cd y -> x = y.
Proof.
  intros Hx Hy. destruct (two x Hx) as [[H ->]|(s & H & -> & ->)]; destruct (two y Hy) as [[H' ->]|(s' & H' & -> & ->)]; intros E; pose proof (fl _ H); pose proof (fl _ H'); try lia.
  - now apply (lead_inj true n nodes super CU).
  - f_equal. apply (lead_inj true n nodes super CU); auto. fold ld. lia.
Qed.
Lemma nodes2_In v : In v nodes2 <-> exists x, x < 2 * nodes /\ v = cd x.
Proof. unfold nodes2. rewrite in_map_iff. split; [intros (x & <- & H); apply in_seq in H; exists x; split; auto; lia|intros (x & H & ->); exists x; split; auto; apply in_seq; lia]. Qed.
Lemma nodes2_ND : NoDup nodes2.
Proof. apply NoDup_of_aget. unfold nodes2. rewrite map_length, seq_length. intros i j Hi Hj E. rewrite !aget_map_seq in E by lia. now apply cd_inj. Qed.

Lemma fe_lt x y : fe x y -> x < y.
Proof.
  intros [H|[(H1 & H2 & _)|(H1 & H2 & H3)]]; [|lia|].
  - now apply (lead_edge_lt true n nodes super CU Ap Ai).
  - apply (lead_edge_lt true n nodes super CU Cp Ci _ _ TC) in H3. lia.
Qed.
Lemma fe_dom x y : fe x y -> x < 2 * nodes /\ y < 2 * nodes.
Proof.
  intros [H|[(H1 & H2 & _)|(H1 & H2 & H3)]]; [|lia|].
  - destruct H as (A & B & _). lia.
  - destruct H3 as (A & B & _). lia.
Qed.

Lemma tgA_In Lp Li s t' : wf_csc n Lp Li -> tri_of true n Lp Li -> s < nodes -> In t' (tg true sup Lp Li (ld s)) -> exists t, t < nodes /\ t' = ld t /\ (s = t \/ lead_edge true nodes Lp Li super s t).
Proof.
  intros W T Hs H. destruct (tg_lead true n nodes super sup CU SU Lp Li (ld s) t' W (fl s Hs) H) as (t & Ht & ->). exists t. splits; auto.
  destruct (Nat.eq_dec s t) as [->|Hne]; [now left|right].
  destruct (proj1 (tg_In true n nodes super sup CU SU Lp Li s (ld t) W (fun _ => proj1 T) Hs)) as (t2 & E & He); [split; auto; intros E; apply Hne; symmetry; now apply (lead_inj true n nodes super CU)|].
  apply (lead_inj true n nodes super CU) in E; auto; [now subst|apply He].
Qed.

Lemma succ_In x w : x < 2 * nodes -> (In w (succ (cd x)) -> exists y, y < 2 * nodes /\ w = cd y /\ (x = y \/ fe x y)).
Proof.
  intros Hx. destruct (two x Hx) as [[H ->]|(s & H & -> & ->)]; intros Hw.
  - rewrite succ1 in Hw by auto. apply in_app_iff in Hw. destruct Hw as [Hw|Hw].
    + destruct (tgA_In Ap Ai x w WA TA H Hw) as (t & Ht & -> & He). exists t. split; [lia|]. split; [now rewrite cd1|]. destruct He as [->|He]; [now left|right; now left].
    + apply in_map_iff in Hw. destruct Hw as (t' & <- & Ht'). apply sB_In in Ht'; auto. destruct Ht' as (t & Ht & -> & He). exists (nodes + t). rewrite cd2. splits; auto. lia.
  - rewrite succ2 in Hw by auto. apply in_map_iff in Hw. destruct Hw as (t' & <- & Ht'). destruct (tgA_In Cp Ci s t' WC TC H Ht') as (t & Ht & -> & He).
    exists (nodes + t). rewrite cd2. split; [lia|]. split; [auto|]. destruct He as [->|He]; [now left|right]. right. right. splits; try lia.
    now replace (nodes + s - nodes) with s by lia; replace (nodes + t - nodes) with t by lia.
Qed.
Lemma succ_fe x y : fe x y -> In (cd y) (succ (cd x)).
Proof.
  intros He. destruct (fe_dom x y He) as [Hx Hy]. pose proof He as He'. destruct He as [H|[(H1 & H2 & H3)|(H1 & H2 & H3)]].
  - assert (x < nodes) by apply H. assert (y < nodes) by apply H. rewrite !cd1 by auto. rewrite succ1 by auto. apply in_app_iff. left.
    apply (tg_In true n nodes super sup CU SU Ap Ai x (ld y) WA (fun _ => proj1 TA)); auto. eauto.
  - rewrite (cd1 x), succ1 by auto. apply in_app_iff. right. destruct (two y Hy) as [[Hy' _]|(t & Ht & -> & ->)]; [lia|]. apply in_map_iff. exists (ld t). split; auto.
    apply sB_In; auto. eauto.
  - destruct (two x Hx) as [[Hy' _]|(s & Hs & -> & ->)]; [lia|]. destruct (two y Hy) as [[Hy' _]|(t & Ht & -> & ->)]; [lia|]. rewrite succ2 by auto. apply in_map_iff. exists (ld t). split; auto.
    replace (nodes + s - nodes) with s in H3 by lia. replace (nodes + t - nodes) with t in H3 by lia.
    apply (tg_In true n nodes super sup CU SU Cp Ci s (ld t) WC (fun _ => proj1 TC)); auto. eauto.
Qed.

Let eb u v := negb (u =? v) && existsb (Nat.eqb v) (succ u).
Lemma eb2_iff u v : eb u v = true <-> u <> v /\ In v (succ u).
Proof.
  unfold eb. rewrite andb_true_iff, negb_true_iff, Nat.eqb_neq, existsb_exists. split; intros [H1 H2]; split; auto.
  - destruct H2 as (w & Hw & E). apply Nat.eqb_eq in E. now subst.
  - exists v. split; auto. apply Nat.eqb_refl.
Qed.
Lemma eb2_fe x y : x < 2 * nodes -> y < 2 * nodes -> (eb (cd x) (cd y) = true <-> fe x y).
Proof.
  intros Hx Hy. rewrite eb2_iff. split.
  - intros [H1 H2]. destruct (succ_In x _ Hx H2) as (y' & Hy' & E & He). apply cd_inj in E; auto. subst y'. destruct He as [->|He]; [now destruct H1|auto].
  - intros H. split; [|now apply succ_fe]. intros E. apply cd_inj in E; auto. apply fe_lt in H. lia.
Qed.
Lemma cd_mono x y : x < y -> y < 2 * nodes -> cd x < cd y.
Proof.
  intros L Hy. assert (M : forall a b, a < b -> b < nodes -> ld a < ld b).
  { intros a b H H'. pose proof (lead_has true n nodes super CU a ltac:(lia)) as A. pose proof (lead_has true n nodes super CU b ltac:(lia)) as B.
    apply (has_iff true n nodes super CU) in A, B; try lia; try (apply fl; lia). pose proof (cut_mono true n nodes super CU (S a) b ltac:(lia) ltac:(lia)). unfold pos in *. unfold ld. lia. }
  destruct (two x ltac:(lia)) as [[H ->]|(s & H & -> & ->)]; destruct (two y Hy) as [[H' ->]|(s' & H' & -> & ->)]; try lia.
  - now apply M.
  - pose proof (fl x H). lia.
  - specialize (M s s' ltac:(lia) H'). lia.
Qed.
Lemma eb2_rank u v : In u nodes2 -> In v nodes2 -> eb u v = true -> u < v.
Proof.
  intros Hu Hv He. apply nodes2_In in Hu, Hv. destruct Hu as (x & Hx & ->), Hv as (y & Hy & ->). apply eb2_fe in He; auto. apply fe_lt in He. now apply cd_mono.
Qed.

Definition fu_lev (c : nat) : nat := lev_of nodes2 eb (fun v => v) c.
Lemma fu_lev_lt x y : fe x y -> fu_lev (cd x) < fu_lev (cd y).
Proof.
  intros He. destruct (fe_dom x y He) as [Hx Hy]. apply (lev_of_lt nodes2 eb (fun v => v) eb2_rank).
  - apply nodes2_In. eauto.
  - apply nodes2_In. eauto.
  - now apply eb2_fe.
Qed.
Lemma fu_lev_pred y : y < 2 * nodes -> 0 < fu_lev (cd y) -> exists x, fe x y /\ S (fu_lev (cd x)) = fu_lev (cd y).
Proof.
  intros Hy H. destruct (lev_of_pred nodes2 eb (fun v => v) eb2_rank (cd y)) as (u & U1 & U2 & U3); auto; [apply nodes2_In; eauto|].
  apply nodes2_In in U1. destruct U1 as (x & Hx & ->). exists x. split; auto. now apply eb2_fe.
Qed.
Lemma fu_lev_le : forall y, y < 2 * nodes -> fu_lev (cd y) <= y.
Proof.
  intros y. induction y as [y IH] using lt_wf_ind. intros Hy. destruct (Nat.eq_dec (fu_lev (cd y)) 0); [lia|].
  destruct (fu_lev_pred y Hy ltac:(lia)) as (x & He & E). pose proof (fe_lt x y He). specialize (IH x ltac:(lia) ltac:(lia)). lia.
Qed.
Lemma fu_lev_depth y : y < 2 * nodes -> depth_is fe y (fu_lev (cd y)).
Proof.
  intros Hy. split.
  - remember (fu_lev (cd y)) as d eqn:Ed. revert y Hy Ed. induction d as [|d IH]; intros y Hy Ed; [exists y; constructor|].
    destruct (fu_lev_pred y Hy ltac:(lia)) as (x & He & E). destruct (IH x) as (u & Hu); [apply (fe_dom _ _ He)|lia|]. exists u. eapply chain_snoc; eauto.
  - intros u k Hc. enough (k + fu_lev (cd u) <= fu_lev (cd y)) by lia. clear Hy. induction Hc as [v|u v w k Hc IH He]; [lia|]. apply fu_lev_lt in He. lia.
Qed.

Lemma count_out l v : (forall t, In t l -> t <> v) -> count_occ Nat.eq_dec l v = 0.
Proof. intros H. apply count_occ_not_In. intros Hv. now apply (H v). Qed.

Lemma cnt2 v : cnt succ nodes2 v = cnt succ (map cd (seq 0 nodes)) v + cnt succ (map (fun s => cd (nodes + s)) (seq 0 nodes)) v.
Proof.
  unfold nodes2. replace (2 * nodes) with (nodes + nodes) by lia. rewrite seq_app, map_app, cnt_app. f_equal. f_equal. cbn [Nat.add].
  rewrite <- (Nat.add_0_r nodes) at 1. rewrite seq_plus, map_map. reflexivity.
Qed.

Lemma cnt_first t : t < nodes -> cnt succ nodes2 (ld t) = cnt sA heads (ld t).
Proof.
  intros Ht. pose proof (fl t Ht) as Hl. rewrite cnt2. rewrite (cnt_zero succ (map (fun s => cd (nodes + s)) _)).
  2:{ intros u Hu. apply in_map_iff in Hu. destruct Hu as (s & <- & Hs). apply in_seq in Hs. rewrite cd2. unfold into. destruct (_ =? _); auto.
      rewrite succ2 by lia. apply count_out. intros w Hw. apply in_map_iff in Hw. destruct Hw as (a & <- & _). lia. }
  rewrite Nat.add_0_r. unfold cnt, heads. rewrite !map_map. f_equal. apply map_ext_in. intros s Hs. apply in_seq in Hs. rewrite cd1 by lia. unfold into.
  destruct (_ =? _); auto. rewrite succ1 by lia. rewrite count_occ_app. rewrite (count_out (map _ _)); [lia|]. intros w Hw. apply in_map_iff in Hw. destruct Hw as (a & <- & _). lia.
Qed.
Lemma cnt_second t : t < nodes -> cnt succ nodes2 (ld t + n) = cnt sC heads (ld t) + sumB nodes (ld t).
Proof.
  intros Ht. pose proof (fl t Ht) as Hl. rewrite cnt2. rewrite Nat.add_comm. f_equal.
  - unfold cnt, heads. rewrite !map_map. f_equal. apply map_ext_in. intros s Hs. apply in_seq in Hs. rewrite cd2. unfold into.
    destruct (Nat.eqb_spec (ld s + n) (ld t + n)), (Nat.eqb_spec (ld s) (ld t)); try lia. rewrite succ2 by lia. apply count_map_add.
  - unfold cnt, sumB. rewrite !map_map. f_equal. apply map_ext_in. intros s Hs. apply in_seq in Hs. rewrite cd1 by lia. unfold into. pose proof (fl s ltac:(lia)) as Hls.
    destruct (Nat.eqb_spec (ld s) (ld t + n)); [lia|]. rewrite succ1 by lia. rewrite count_occ_app, count_map_add. rewrite (count_out (sA _)); [lia|].
    intros w Hw. pose proof (tg_lt Ap Ai (ld s) w WA Hls Hw). lia.
Qed.

Hypothesis IN2 : forall t, t < nodes -> exists x, fe x (nodes + t).

Lemma fused_levels_wp (Q : nat * (list nat * list nat) -> Prop) :
  (forall Ls lp ls, (forall l v, l < length Ls -> (In v Ls.[l] <-> exists x, x < 2 * nodes /\ v = cd x /\ l = fu_lev (cd x))) ->
     (forall x, x < 2 * nodes -> fu_lev (cd x) < length Ls) -> NoDup (concat Ls) -> length (concat Ls) = 2 * nodes ->
     (forall l, l < length Ls -> Ls.[l] <> []) -> rep Ls lp ls -> length lp = S (length Ls) -> length ls = 2 * nodes -> Q (length Ls, (lp, ls))) ->
  wp (deg <- bcb_degrees n nodes Ap Ai Bp Bi Cp Ci sup super ;;
      '(queue, inq) <- fuse_sources super nodes deg (repeat false (2 * n)) ;;
      fuse_levels (bcb_targets fuel n nodes Ap Ai Bp Bi Cp Ci sup super) (fun _ => Ok []) deg (2 * n) (2 * nodes) (2 * n + 1) queue inq) Q.
Proof.
  intros HQ. wp1. apply bcb_degrees_wp. intros deg D1 D2 D3. wp1.
  assert (DG : forall v, In v nodes2 -> deg.[v] = Z.of_nat (cnt succ nodes2 v)).
  { intros v Hv. apply nodes2_In in Hv. destruct Hv as (x & Hx & ->). destruct (two x Hx) as [[H ->]|(s & H & -> & ->)].
    - rewrite cnt_first by auto. apply D2. now apply fl.
    - rewrite cnt_second by auto. apply D3. now apply fl. }
  apply (fuse_sources_wp true n nodes super deg (2 * n) _ CU); [lia|auto|]. intros q0 inq Q1 Q2 Q3 Q4.
  pose proof (nodes_le true n nodes super CU) as NLE.
  apply (levels_wp (2 * n) nodes2 succ (fun _ => []) deg (fun _ => false) fu_lev (bcb_targets fuel n nodes Ap Ai Bp Bi Cp Ci sup super) (fun _ => Ok [])).
  - apply nodes2_ND.
  - intros v Hv. apply nodes2_In in Hv. destruct Hv as (x & Hx & ->). now apply cd_lt.
  - intros v Hv. apply nodes2_In in Hv. destruct Hv as (x & Hx & ->).
    assert (T : wp (bcb_targets fuel n nodes Ap Ai Bp Bi Cp Ci sup super (cd x)) (fun r => r = succ (cd x))).
    { unfold bcb_targets. cbv zeta. destruct (two x Hx) as [[H ->]|(s & H & -> & ->)].
      - pose proof (fl x H) as Hl. rewrite Nat.div_small by auto. cbn [Nat.eqb Nat.mul]. rewrite Nat.sub_0_r. rewrite succ1 by auto.
        apply wp_bind, (bn_positions_wp true); [destruct WA; lia|]. apply wp_bind, (block_targets_wp true n nodes super sup SU); [now apply tg_pos_ok|].
        replace (map (fun p => sup.[Ai.[p]] + 0) (positions true Ap (ld x))) with (sA (ld x)) by (unfold sA, tg; apply map_ext; intros; lia).
        rewrite find_ld by auto. cbn [bind]. destruct (next_ok x H) as (E1 & E2 & E3). destruct (cut_facts true n nodes super CU) as (_ & _ & _ & SL & _).
        pose proof (lead_pos true n nodes super CU x H) as LP. change (lead super x) with (ld x) in LP.
        wp1. wp1; [lia|]. wp1. wp1; [lia|]. wp1. wp1; [destruct WB; lia|]. replace (Z.of_nat (ld x) + (super.[S x] - super.[x]))%Z with super.[S x] by lia.
        wp1. apply P_Tree.rdZ_wp; [lia|destruct WB; lia|]. change (seq Bp.[ld x] (Bp.[Z.to_nat super.[S x]] - Bp.[ld x])) with (bpos x).
        apply wp_bind, (block_targets_wp true n nodes super sup SU); [intros p; now apply bpos_lt|]. wp1. f_equal. unfold sB. now rewrite map_map.
      - pose proof (fl s H) as Hl. assert (E : (ld s + n) / n = 1) by (replace (ld s + n) with (ld s + 1 * n) by lia; rewrite Nat.div_add, Nat.div_small by lia; reflexivity).
        rewrite E. cbn [Nat.eqb]. replace (ld s + n - 1 * n) with (ld s) by lia. rewrite succ2 by auto.
        apply wp_bind, (bn_positions_wp true); [destruct WC; lia|]. apply (block_targets_wp true n nodes super sup SU); [now apply tg_pos_ok|]. unfold sC, tg. now rewrite map_map. }
    unfold wp in T. destruct (bcb_targets fuel n nodes Ap Ai Bp Bi Cp Ci sup super (cd x)); [now rewrite T|contradiction].
  - reflexivity.
  - intros u v Hu Hv. apply nodes2_In in Hu. destruct Hu as (x & Hx & ->). destruct (succ_In x v Hx Hv) as (y & Hy & -> & _). apply nodes2_In. eauto.
  - auto.
  - intros v Hv _. now apply DG.
  - discriminate.
  - intros u v Hu Hv Hne. apply nodes2_In in Hu. destruct Hu as (x & Hx & ->). destruct (succ_In x v Hx Hv) as (y & Hy & -> & [->|He]); [contradiction|]. now apply fu_lev_lt.
  - intros v Hv _ Hl. apply nodes2_In in Hv. destruct Hv as (y & Hy & ->). destruct (fu_lev_pred y Hy Hl) as (x & He & E). destruct (fe_dom x y He) as [Hx _].
    exists (cd x). splits; auto; [apply nodes2_In; eauto| |now apply succ_fe]. intros E'. apply cd_inj in E'; auto. apply fe_lt in He. lia.
  - intros u v _ [].
  - intros u u' v _ _ [].
  - constructor.
  - discriminate.
  - unfold nodes2. now rewrite map_length, seq_length.
  - intros v Hv. apply nodes2_In in Hv. destruct Hv as (y & Hy & ->). pose proof (fu_lev_le y Hy). lia.
  - lia.
  - auto.
  - assert (Z0 : forall y, y < 2 * nodes -> (deg.[cd y] = 0%Z <-> fu_lev (cd y) = 0)).
    { intros y Hy. rewrite DG by (apply nodes2_In; eauto). split; intros E.
      - destruct (Nat.eq_dec (fu_lev (cd y)) 0); auto. exfalso. destruct (fu_lev_pred y Hy ltac:(lia)) as (x & He & _). destruct (fe_dom x y He) as [Hx _].
        assert (I : 0 < into succ (cd y) (cd x)) by (apply into_pos, eb2_iff, eb2_fe; auto). pose proof (cnt_ge succ nodes2 (cd x) (cd y) ltac:(apply nodes2_In; eauto)). lia.
      - rewrite cnt_zero; [reflexivity|]. intros u Hu. apply nodes2_In in Hu. destruct Hu as (x & Hx & ->). destruct (Nat.eq_dec (into succ (cd y) (cd x)) 0); auto. exfalso.
        pose proof (proj1 (into_pos succ (cd x) (cd y)) ltac:(lia)) as I. apply eb2_iff in I. apply eb2_fe in I; auto. apply fu_lev_lt in I. lia. }
    intros v. rewrite Q2. split.
    + intros (s & Hs & -> & E). change (lead super s) with (ld s) in *. rewrite <- (cd1 s) in * by auto. split; [apply nodes2_In; exists s; split; auto; lia|]. apply Z0; auto. lia.
    + intros [Hv HL]. apply nodes2_In in Hv. destruct Hv as (y & Hy & ->). pose proof (proj2 (Z0 y Hy) HL) as E. destruct (two y Hy) as [[H Ec]|(t & H & -> & Ec)].
      * exists y. rewrite <- E, Ec. auto.
      * exfalso. destruct (IN2 t H) as (x & He). apply fu_lev_lt in He. lia.
  - auto.
  - intros v Hv. apply Q4. apply nodes2_In in Hv. destruct Hv as (x & Hx & ->). now apply cd_lt.
  - intros Ls lp ls L1 L2 L3 L4 L5 L6 L7 L8. unfold nodes2 in L4. rewrite map_length, seq_length in L4. apply HQ; auto.
    + intros l v Hl. rewrite (L1 l v Hl). rewrite nodes2_In. split.
      * intros [(x & Hx & ->) E]. exists x. auto.
      * intros (x & Hx & -> & ->). split; auto. exists x. auto.
    + intros x Hx. apply L2. apply nodes2_In. eauto.
Qed.
End Fused.
