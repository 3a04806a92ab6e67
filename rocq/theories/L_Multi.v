(** Lemmas for level_set_multi_graphs (M_Multi.v). *)
From Verif Require Import Base Lib Spec SpecMulti L_Util L_LBC4 L_LBC5 M_Multi.
From Coq Require Import ZifyBool ZifyNat.

Ltac wq := match goal with |- wp (bind _ _) _ => apply wp_bind; wp1 | _ => wp1 end.

Definition mem (x : nat) (l : list nat) : bool := existsb (Nat.eqb x) l.
Lemma mem_In x l : mem x l = true <-> In x l.
Proof.
  unfold mem. rewrite existsb_exists. split.
  - intros (y & Hy & E). apply Nat.eqb_eq in E. now subst.
  - intros H. exists x. split; [auto|]. apply Nat.eqb_refl.
Qed.
Lemma mem_false x l : mem x l = false <-> ~ In x l.
Proof. rewrite <- mem_In. destruct (mem x l); intuition congruence. Qed.
Lemma mem_iff x l x' l' : (In x l <-> In x' l') -> mem x l = mem x' l'.
Proof.
  intros H. destruct (mem x l) eqn:E1, (mem x' l') eqn:E2; auto.
  - apply mem_In in E1. apply mem_false in E2. tauto.
  - apply mem_In in E2. apply mem_false in E1. tauto.
Qed.

Lemma copy_inj n u v q q' : u < n -> v < n -> u + n * q = v + n * q' -> u = v /\ q = q'.
Proof.
  intros Hu Hv E. destruct (Nat.div_mod_unique n q q' u v) as [A B]; lia.
Qed.
Lemma copy_lt n K u q : u < n -> q < K -> u + n * q < K * n.
Proof. intros. nia. Qed.
Lemma copy_form n K x : x < K * n -> exists u q, u < n /\ q < K /\ x = u + n * q.
Proof.
  intros H. assert (Hn : n <> 0) by (intros ->; lia).
  exists (x mod n), (x / n). split; [now apply Nat.mod_upper_bound|]. split.
  - apply Nat.div_lt_upper_bound; [auto|lia].
  - rewrite (Nat.div_mod x n) at 1 by auto. lia.
Qed.
Lemma copy_div n u q : u < n -> (u + n * q) / n = q.
Proof. intros H. rewrite Nat.add_comm, Nat.mul_comm, Nat.div_add_l by lia. rewrite Nat.div_small by lia. lia. Qed.

Section S.
Variables (n K : nat) (Lp Li : list nat).
Hypothesis HW : wf_csc n Lp Li.
Hypothesis HK : 1 <= K.

Local Notation tl := (tail_edge n Lp Li).
Local Notation ME := (copies_edge n K tl).

Lemma Lp_in i : i <= n -> i < length Lp.
Proof. destruct HW as (H & _). lia. Qed.
Lemma Lp_mono i j : i <= j -> j <= n -> Lp.[i] <= Lp.[j].
Proof. destruct HW as (_ & _ & H & _). intros. now apply (mono_le (aget Lp) n). Qed.
Lemma Li_in p i : i < n -> p < Lp.[S i] -> p < length Li /\ Li.[p] < n.
Proof.
  intros Hi Hp. destruct HW as (_ & _ & _ & H4 & H5). pose proof (Lp_mono (S i) n ltac:(lia) ltac:(lia)).
  split; [lia|]. apply H5. lia.
Qed.

(** the multiplicity of a tail edge *)
Definition tm (u v : nat) : nat := cnt (S Lp.[u]) Lp.[S u] (fun k => Li.[k] =? v).
Lemma tm_pos u v : u < n -> (0 < tm u v <-> tl u v).
Proof.
  intros Hu. unfold tm. split.
  - intros H. apply cnt_pos in H. destruct H as (k & Hk & E). apply Nat.eqb_eq in E. split; [auto|]. exists k. split; [lia|auto].
  - intros (_ & k & Hk & E). apply (Nat.lt_le_trans 0 1); [lia|]. apply (cnt_ge_one _ _ _ k); [lia|]. now apply Nat.eqb_eq.
Qed.
Lemma tl_lt u v : tl u v -> u < n /\ v < n.
Proof. intros (Hu & k & Hk & <-). split; [auto|]. now apply (Li_in k u); [|lia]. Qed.

(** tail edges into [v] of copy [q] from nodes that are not in [P] *)
Definition R (P : list nat) (q v : nat) : nat := sum_r 0 n (fun u => if mem (u + n * q) P then 0 else tm u v).
Definition big : Z := memset_one.
Definition base (q : nat) : Z := if q =? 0 then 0%Z else big.

Lemma degrees_wp (Q : list Z -> Prop) :
  (forall deg, length deg = K * n -> (forall v q, v < n -> q < K -> deg.[v + n * q] = (base q + Z.of_nat (R [] q v))%Z) -> Q deg) ->
  wp (multi_degrees n K Lp Li) Q.
Proof.
  intros HQ. unfold multi_degrees. destruct (Nat.eqb_spec K 0) as [E|_]; [lia|]. cbn [andb].
  set (I := fun (i : nat) (c : nat -> nat -> nat) (deg : list Z) => length deg = K * n /\
    forall v q, v < n -> q < K -> deg.[v + n * q] = (base q + Z.of_nat (sum_r 0 i (fun u => tm u v) + c v q))%Z).
  apply (wp_for (fun i => I i (fun _ _ => 0))); [lia| | |].
  - split; [rewrite app_length, !repeat_length; nia|]. intros v q Hv Hq. rewrite sum_r_nil by lia.
    unfold base. destruct (Nat.eqb_spec q 0) as [->|Hq0].
    + rewrite aget_app1 by (rewrite repeat_length; lia). rewrite aget_repeat by lia. lia.
    + rewrite aget_app2 by (rewrite repeat_length; nia). rewrite repeat_length. rewrite aget_repeat by nia. unfold big. lia.
  - intros i deg Hi (I1 & I2). wq; [apply Lp_in; lia|]. wq; [apply Lp_in; lia|].
    pose proof (Lp_mono i (S i) ltac:(lia) ltac:(lia)) as Hm.
    destruct (le_lt_dec Lp.[S i] (S Lp.[i])) as [Hs|Hs].
    { rewrite for_nil by lia. apply wp_ret. split; [auto|]. intros v q Hv Hq. rewrite I2 by auto.
      rewrite sum_r_S by lia. assert (T : tm i v = 0) by (unfold tm, cnt; apply sum_r_nil; lia). lia. }
    apply (wp_for (fun p => I i (fun v _ => cnt (S Lp.[i]) p (fun k => Li.[k] =? v)))); [lia| | |].
    + split; [auto|]. intros v q Hv Hq. rewrite I2 by auto. unfold cnt. rewrite (sum_r_nil (S Lp.[i])) by lia. lia.
    + intros p deg1 Hp (J1 & J2). destruct (Li_in p i ltac:(lia) ltac:(lia)) as [Hp1 Hp2].
      apply (wp_for (fun qq => I i (fun v q => cnt (S Lp.[i]) p (fun k => Li.[k] =? v) + (if (v =? Li.[p]) && (q <? qq) then 1 else 0)))); [lia| | |].
      * split; [auto|]. intros v q Hv Hq. rewrite J2 by auto. replace (q <? 0) with false by (symmetry; apply Nat.ltb_ge; lia).
        rewrite andb_false_r. lia.
      * intros qq deg2 Hqq (G1 & G2). wq; [auto|]. wq; [rewrite G1; apply copy_lt; lia|]. 
        apply wp_wr; [rewrite G1; apply copy_lt; lia|]. split; [now rewrite upd_length|].
        intros v q Hv Hq. rewrite aget_upd by (rewrite G1; apply copy_lt; lia).
        destruct (Nat.eqb_spec (v + n * q) (Li.[p] + n * qq)) as [E|E].
        -- apply copy_inj in E; auto. destruct E as [-> ->]. rewrite G2 by auto. rewrite Nat.eqb_refl.
           replace (qq <? qq) with false by (symmetry; apply Nat.ltb_ge; lia). replace (qq <? S qq) with true by (symmetry; apply Nat.ltb_lt; lia).
           cbn [andb]. lia.
        -- rewrite G2 by auto. destruct (Nat.eqb_spec v Li.[p]) as [->|Hne]; [|cbn [andb]; lia].
           replace (q <? S qq) with (q <? qq); [lia|]. assert (q <> qq) by congruence. lia.
      * intros deg2 (G1 & G2). split; [auto|]. intros v q Hv Hq. rewrite G2 by auto. rewrite cnt_S by lia.
        rewrite (Nat.eqb_sym v). destruct (Nat.eqb_spec Li.[p] v); [|cbn [andb b2n]; lia].
        replace (q <? K) with true by (symmetry; apply Nat.ltb_lt; lia). cbn [andb b2n]. lia.
    + intros deg1 (J1 & J2). split; [auto|]. intros v q Hv Hq. rewrite J2 by auto. rewrite sum_r_S by lia. fold (tm i v). lia.
  - intros deg (I1 & I2). apply HQ; [auto|]. intros v q Hv Hq. rewrite I2 by auto. unfold R. f_equal. f_equal. rewrite Nat.add_0_r.
    apply sum_r_ext. intros u Hu. unfold mem. simpl. auto.
Qed.

(** processing a node removes its edges *)
Lemma R_snoc P q0 u0 q v : u0 < n -> ~ In (u0 + n * q0) P ->
  R P q v = R (P ++ [u0 + n * q0]) q v + (if q =? q0 then tm u0 v else 0).
Proof.
  intros Hu0 Hnot. unfold R. destruct (Nat.eqb_spec q q0) as [->|Hq].
  - assert (E : sum_r 0 n (fun u => if mem (u + n * q0) P then 0 else tm u v) =
        sum_r 0 n (fun u => (if mem (u + n * q0) (P ++ [u0 + n * q0]) then 0 else tm u v) + (if u =? u0 then tm u0 v else 0))).
    { apply sum_r_ext. intros u Hu. destruct (Nat.eqb_spec u u0) as [->|Hne].
      - replace (mem (u0 + n * q0) P) with false by (symmetry; now apply mem_false).
        replace (mem (u0 + n * q0) (P ++ [u0 + n * q0])) with true; [lia|].
        symmetry. apply mem_In. apply in_app_iff. right. now left.
      - replace (mem (u + n * q0) (P ++ [u0 + n * q0])) with (mem (u + n * q0) P); [lia|].
        apply mem_iff. rewrite in_app_iff. split; [auto|]. intros [H|[H|[]]]; [auto|]. apply copy_inj in H; lia. }
    rewrite E, sum_r_add. f_equal. apply sum_r_delta. lia.
  - rewrite Nat.add_0_r. apply sum_r_ext. intros u Hu.
    replace (mem (u + n * q) (P ++ [u0 + n * q0])) with (mem (u + n * q) P); [auto|].
    apply mem_iff. rewrite in_app_iff. split; [auto|]. intros [H|[H|[]]]; [auto|]. apply copy_inj in H; lia.
Qed.

Lemma R_zero P q v : R P q v = 0 <-> forall u, tl u v -> In (u + n * q) P.
Proof.
  unfold R. split.
  - intros H u Hu. pose proof (tl_lt _ _ Hu) as [Hu1 _]. pose proof (sum_r_zero _ _ _ H u ltac:(lia)) as E. cbn beta in E.
    destruct (mem (u + n * q) P) eqn:M; [now apply mem_In|]. apply tm_pos in Hu; auto. lia.
  - intros H. apply sum_r_all_zero. intros u Hu. destruct (mem (u + n * q) P) eqn:M; [auto|].
    destruct (tm u v) eqn:T; [auto|]. exfalso. apply mem_false in M. apply M, H. apply tm_pos; lia.
Qed.

(** * One level.  [P] the nodes placed, [W] the queue.  [c] the entries that the node at hand still has to deliver *)
Variable deg : list Z.
Hypothesis Hdeg1 : length deg = K * n.
Hypothesis Hdeg2 : forall v q, v < n -> q < K -> deg.[v + n * q] = (base q + Z.of_nat (R [] q v))%Z.

Record st_in (P W : list nat) (c : nat -> nat -> nat) (vis : list Z) (inq : list bool) : Prop := {
  si_vis : length vis = K * n;
  si_inq : length inq = K * n;
  si_nodup : NoDup (P ++ W);
  si_lt : forall x, In x (P ++ W) -> x < K * n;
  si_q : forall x, x < K * n -> inq.[x] = mem x W;
  si_done : forall v, v < n -> In v (P ++ W) -> R P 0 v + c v 0 = 0;
  si_todo : forall v, v < n -> ~ In v (P ++ W) -> 0 < R P 0 v + c v 0 /\ (deg.[v] - vis.[v])%Z = Z.of_nat (R P 0 v + c v 0);
  si_copy : forall v q, v < n -> 1 <= q < K ->
    (deg.[v + n * q] - vis.[v + n * q])%Z = (big + Z.of_nat (R P q v + c v q) - Z.of_nat (b2n (mem (v + n * q) P)))%Z }.

Lemma entry_wp P W q0 u0 p vis inq next (Q : mq -> Prop) :
  u0 < n -> q0 < K -> Lp.[u0] < p < Lp.[S u0] ->
  st_in P W (fun v q => if q =? q0 then cnt p Lp.[S u0] (fun k => Li.[k] =? v) else 0) vis inq ->
  (forall W1 vis' inq',
     (forall x, In x W1 -> x < n /\ q0 = 0 /\ tl u0 x) ->
     st_in P (W ++ W1) (fun v q => if q =? q0 then cnt (S p) Lp.[S u0] (fun k => Li.[k] =? v) else 0) vis' inq' ->
     Q (W ++ W1, vis', inq', next + length W1)) ->
  wp (multi_entry n Li deg q0 p (W, vis, inq, next)) Q.
Proof.
  intros Hu Hq Hp HS HQ. destruct HS as [S1 S2 S3 S4 S5 S6 S7 S8]. unfold multi_entry.
  destruct (Li_in p u0 Hu ltac:(lia)) as [Hp1 Hp2]. set (v := Li.[p]) in *.
  wq; [auto|]. fold v. pose proof (copy_lt n K v q0 Hp2 Hq) as Ho. wq; [lia|]. wq; [lia|].
  assert (Ec : forall w, cnt p Lp.[S u0] (fun k => Li.[k] =? w) = b2n (v =? w) + cnt (S p) Lp.[S u0] (fun k => Li.[k] =? w)).
  { intros w. rewrite (cnt_split p (S p)) by lia. rewrite cnt_S by lia. unfold cnt at 1. rewrite sum_r_nil by lia. fold v. lia. }
  assert (Hready : 1 <= q0 -> (vis.[v + n * q0] =? deg.[v + n * q0] - 1)%Z = false).
  { intros H1. pose proof (S8 v q0 Hp2 ltac:(lia)) as E. cbn beta in E. rewrite Nat.eqb_refl in E. rewrite Ec, Nat.eqb_refl in E.
    cbn [b2n] in E. unfold big, memset_one in E. destruct (mem (v + n * q0) P); cbn [b2n] in E; apply Z.eqb_neq; lia. }
  apply wp_bind. destruct (vis.[v + n * q0] =? deg.[v + n * q0] - 1)%Z eqn:Er.
  - destruct (Nat.eq_dec q0 0) as [->|Hne]; [|specialize (Hready ltac:(lia)); congruence]. clear Hready.
    rewrite Nat.mul_0_r, Nat.add_0_r in *.
    assert (Hnot : ~ In v (P ++ W)).
    { intros H. apply S6 in H; auto. cbn beta in H. rewrite Nat.eqb_refl, Ec, Nat.eqb_refl in H. cbn [b2n] in H. lia. }
    destruct (S7 v Hp2 Hnot) as [S7a S7b]. cbn beta in S7b. rewrite Nat.eqb_refl, Ec, Nat.eqb_refl in S7b. cbn [b2n] in S7b.
    apply Z.eqb_eq in Er.
    wq; [lia|]. apply wp_ret. rewrite S5 by lia. replace (mem v W) with false
      by (symmetry; apply mem_false; intros H; apply Hnot; apply in_app_iff; auto). cbn [negb].
    wq; [lia|]. apply wp_ret. replace (S next) with (next + length [v]) by (simpl; lia). apply HQ.
    + intros x [<-|[]]. split; [auto|split; [auto|]]. split; [auto|]. exists p. split; [lia|auto].
    + constructor; auto.
      * now rewrite upd_length.
      * rewrite app_assoc. apply NoDup_app_intro; [auto|constructor; [intros []|constructor]|]. intros x Hx [<-|[]]. auto.
      * intros x Hx. rewrite app_assoc, in_app_iff in Hx. destruct Hx as [Hx|[<-|[]]]; [auto|lia].
      * intros x Hx. rewrite aget_upd by lia. destruct (Nat.eqb_spec x v) as [->|Hxv].
        -- symmetry. apply mem_In. apply in_app_iff. right. now left.
        -- rewrite S5 by auto. apply mem_iff. rewrite in_app_iff. split; [auto|]. intros [H|[H|[]]]; [auto|congruence].
      * intros w Hw Hin. cbn beta. rewrite app_assoc, in_app_iff in Hin. destruct Hin as [Hin|[<-|[]]].
        -- apply S6 in Hin; auto. cbn beta in Hin. rewrite Ec in Hin. rewrite Nat.eqb_refl in *. lia.
        -- rewrite Nat.eqb_refl. lia.
      * intros w Hw Hin. assert (Hwv : v <> w) by (intros ->; apply Hin; rewrite !in_app_iff; right; right; now left).
        assert (Hin' : ~ In w (P ++ W)) by (intros H; apply Hin; rewrite app_assoc, in_app_iff; auto).
        destruct (S7 w Hw Hin') as [T1 T2]. cbn beta in T1, T2. rewrite Ec in T1, T2.
        replace (v =? w) with false in T1, T2 by (symmetry; now apply Nat.eqb_neq). cbn [b2n] in T1, T2. cbn beta. rewrite Nat.eqb_refl in *. split; lia.
      * intros w q Hw Hqq. rewrite S8 by auto. replace (q =? 0) with false by (symmetry; apply Nat.eqb_neq; lia). auto.
  - apply wp_ret. clear Hready. wq; [lia|]. apply wp_ret. replace next with (next + length (@nil nat)) by (simpl; lia).
    replace W with (W ++ []) at 1 by apply app_nil_r. apply HQ; [intros x []|]. rewrite app_nil_r.
    apply Z.eqb_neq in Er. constructor; auto.
    + now rewrite upd_length.
    + intros w Hw Hin. apply S6 in Hin; auto. cbn beta in *. rewrite Ec in Hin. destruct (0 =? q0); lia.
    + intros w Hw Hin. destruct (S7 w Hw Hin) as [T1 T2]. cbn beta in T1, T2. rewrite Ec in T1, T2. cbn beta.
      destruct (Nat.eqb_spec 0 q0) as [E0|E0].
      * subst q0. rewrite Nat.mul_0_r, Nat.add_0_r in *. rewrite aget_upd by lia.
        destruct (Nat.eqb_spec v w) as [Ev|Ev]; cbn [b2n] in T1, T2.
        -- subst w. rewrite Nat.eqb_refl. lia.
        -- replace (w =? v) with false by (symmetry; apply Nat.eqb_neq; auto). split; lia.
      * rewrite aget_upd_ne; [split; lia|]. intros E. replace w with (w + n * 0) in E by lia. apply copy_inj in E; lia.
    + intros w q Hw Hqq. pose proof (S8 w q Hw Hqq) as T. cbn beta in T. rewrite Ec in T. cbn beta.
      rewrite aget_upd by lia. destruct (Nat.eqb_spec (w + n * q) (v + n * q0)) as [E|E].
      * apply copy_inj in E; auto. destruct E as [-> ->]. rewrite Nat.eqb_refl in *. rewrite Nat.eqb_refl in T. cbn [b2n] in T. lia.
      * destruct (Nat.eqb_spec q q0) as [->|]; [|lia]. replace (v =? w) with false in T; [cbn [b2n] in T; lia|].
        symmetry. apply Nat.eqb_neq. congruence.
Qed.

Definition zero2 : nat -> nat -> nat := fun _ _ => 0.

Lemma st_in_ext P W c c' vis inq : (forall v q, v < n -> c v q = c' v q) -> st_in P W c vis inq -> st_in P W c' vis inq.
Proof.
  intros E [S1 S2 S3 S4 S5 S6 S7 S8]. constructor; auto.
  - intros v Hv H. rewrite <- E by auto. auto.
  - intros v Hv H. rewrite <- E by auto. auto.
  - intros v q Hv H. rewrite <- E by auto. auto.
Qed.

Lemma node_wp P W x vis inq next levels lev_num (Q : mq * list nat * nat -> Prop) u0 q0 :
  u0 < n -> q0 < K -> x = u0 + n * q0 -> lev_num = length P -> length levels = K * n ->
  (forall i, i < length P -> levels.[i] = P.[i]) ->
  (S q0 < K -> ~ In (u0 + n * S q0) (P ++ x :: W)) ->
  st_in P (x :: W) zero2 vis inq ->
  (forall W1 vis' inq' levels',
     let W2 := if S q0 <? K then W1 ++ [u0 + n * S q0] else W1 in
     (forall y, In y W1 -> y < n /\ q0 = 0 /\ tl u0 y) ->
     st_in (P ++ [x]) (W ++ W2) zero2 vis' inq' -> length levels' = K * n ->
     (forall i, i < length (P ++ [x]) -> levels'.[i] = (P ++ [x]).[i]) ->
     Q ((W ++ W2, vis', inq', next + length W2), levels', length (P ++ [x]))) ->
  wp (multi_node n K Lp Li deg ((x :: W, vis, inq, next), levels, lev_num)) Q.
Proof.
  intros Hu Hq Ex -> HL HLv Hcopy HS HQ. destruct HS as [S1 S2 S3 S4 S5 S6 S7 S8]. unfold multi_node.
  assert (Hx : x < K * n) by (subst x; now apply copy_lt).
  assert (HPl : length P < K * n).
  { pose proof (NoDup_bounded_length (K * n) (P ++ x :: W) S3 S4) as H. rewrite app_length in H. simpl in H. lia. }
  pose proof (NoDup_remove_2 _ _ _ S3) as Hx'. 
  assert (HxP : ~ In x P) by (intros H; apply Hx'; apply in_app_iff; auto).
  assert (HxW : ~ In x W) by (intros H; apply Hx'; apply in_app_iff; auto).
  wq; [lia|]. wq; [lia|]. wq; [lia|]. wq; [lia|].
  replace (x / n) with q0 by (subst x; now rewrite copy_div). replace (x - q0 * n) with u0 by (subst x; lia).
  wq; [apply Lp_in; lia|]. wq; [apply Lp_in; lia|].
  assert (Eapp : forall L, (P ++ [x]) ++ L = P ++ x :: L) by (intros L; now rewrite <- app_assoc).
  assert (Emem : forall y, y <> x -> mem y (P ++ [x]) = mem y P).
  { intros y Hy. apply mem_iff. rewrite in_app_iff. split; [|auto]. intros [H|[H|[]]]; [auto|congruence]. }
  assert (ER : forall q v, R P q v = R (P ++ [x]) q v + (if q =? q0 then tm u0 v else 0)).
  { intros q v. subst x. apply R_snoc; auto. }
  assert (HS0 : st_in (P ++ [x]) W (fun v q => if q =? q0 then tm u0 v else 0) (upd vis x (vis.[x] + 1)%Z) (upd inq x false)).
  { constructor; auto.
    - now rewrite upd_length.
    - now rewrite upd_length.
    - rewrite Eapp. auto.
    - intros y Hy. rewrite Eapp in Hy. auto.
    - intros y Hy. rewrite aget_upd by lia. destruct (Nat.eqb_spec y x) as [->|Hyx].
      + symmetry. now apply mem_false.
      + rewrite S5 by auto. apply mem_iff. simpl. intuition congruence.
    - intros v Hv Hin. rewrite Eapp in Hin. specialize (S6 v Hv Hin). unfold zero2 in S6. rewrite ER in S6. lia.
    - intros v Hv Hin. rewrite Eapp in Hin. specialize (S7 v Hv Hin). unfold zero2 in S7. rewrite ER in S7.
      rewrite aget_upd_ne; [cbn beta; rewrite Nat.add_0_r in S7; auto|]. intros ->. apply Hin. apply in_app_iff. right. now left.
    - intros v q Hv Hqq. specialize (S8 v q Hv Hqq). unfold zero2 in S8. rewrite ER in S8. cbn beta.
      rewrite aget_upd by lia. destruct (Nat.eqb_spec (v + n * q) x) as [E|E].
      + replace (mem (v + n * q) (P ++ [x])) with true by (symmetry; apply mem_In; rewrite E, in_app_iff; right; now left).
        replace (mem (v + n * q) P) with false in S8 by (symmetry; apply mem_false; now rewrite E).
        rewrite E in *. cbn [b2n] in *. lia.
      + rewrite Emem by auto. lia. }
  apply wp_bind.
  set (I := fun (p : nat) (s : mq) => let '(W', vis', inq', next') := s in exists W1, W' = W ++ W1 /\ next' = next + length W1 /\
     (forall y, In y W1 -> y < n /\ q0 = 0 /\ tl u0 y) /\
     st_in (P ++ [x]) (W ++ W1) (fun v q => if q =? q0 then cnt p Lp.[S u0] (fun k => Li.[k] =? v) else 0) vis' inq').
  assert (G : forall s, (let '(W', vis', inq', next') := s in exists W1, W' = W ++ W1 /\ next' = next + length W1 /\
     (forall y, In y W1 -> y < n /\ q0 = 0 /\ tl u0 y) /\ st_in (P ++ [x]) (W ++ W1) zero2 vis' inq') ->
     wp (let '(queue1, vis1, inq1, next1) := s in
        if S q0 <? K then
        let o := u0 + n * (S q0) in
        inq <- wr inq1 o true ;; Ok ((queue1 ++ [o], vis1, inq, S next1), upd levels (length P) x, S (length P))
      else Ok ((queue1, vis1, inq1, next1), upd levels (length P) x, S (length P))) Q).
  { intros [[[W' vis'] inq'] next'] (W1 & -> & -> & HW1 & HS1). specialize (HQ W1).
    assert (EPl : S (length P) = length (P ++ [x])) by (rewrite app_length; simpl; lia).
    assert (HLv' : forall i, i < length (P ++ [x]) -> (upd levels (length P) x).[i] = (P ++ [x]).[i]).
    { intros i Hi. rewrite app_length in Hi. simpl in Hi. rewrite aget_upd by lia. destruct (Nat.eqb_spec i (length P)) as [->|].
      - now rewrite aget_app_last.
      - rewrite aget_app1 by lia. apply HLv. lia. }
    destruct (S q0 <? K) eqn:EK.
    - apply Nat.ltb_lt in EK. pose proof (copy_lt n K u0 (S q0) Hu EK) as Ho. pose proof HS1 as [T1 T2 T3 T4 T5 T6 T7 T8].
      assert (Hnot : ~ In (u0 + n * S q0) ((P ++ [x]) ++ W ++ W1)).
      { intros H. rewrite app_assoc, in_app_iff, Eapp in H. destruct H as [H|H]; [now apply Hcopy|]. apply HW1 in H. nia. }
      cbv zeta. wq; [lia|]. apply wp_ret. rewrite EPl. rewrite <- app_assoc.
      replace (S (next + length W1)) with (next + length (W1 ++ [u0 + n * S q0])) by (rewrite app_length; simpl; lia).
      apply HQ; auto; [|now rewrite upd_length]. constructor; auto.
      + now rewrite upd_length.
      + rewrite !app_assoc. rewrite <- (app_assoc _ W W1). apply NoDup_app_intro; [auto|constructor; [intros []|constructor]|]. intros y Hy [<-|[]]. auto.
      + intros y Hy. rewrite (app_assoc W), (app_assoc _ (W ++ W1)), in_app_iff in Hy. destruct Hy as [Hy|[<-|[]]]; auto.
      + intros y Hy. rewrite aget_upd by lia. destruct (Nat.eqb_spec y (u0 + n * S q0)) as [->|Hne].
        * symmetry. apply mem_In. rewrite !in_app_iff. right. right. now left.
        * rewrite T5 by auto. apply mem_iff. rewrite !in_app_iff. simpl. intuition congruence.
      + intros v Hv Hin. apply T6; auto. rewrite (app_assoc W), (app_assoc _ (W ++ W1)), in_app_iff in Hin. destruct Hin as [Hin|[E|[]]]; [auto|nia].
      + intros v Hv Hin. apply T7; auto. intros H. apply Hin. rewrite (app_assoc W), (app_assoc _ (W ++ W1)), in_app_iff. auto.
    - apply wp_ret. rewrite EPl. apply HQ; auto. now rewrite upd_length. }
  pose proof (Lp_mono u0 (S u0) ltac:(lia) ltac:(lia)) as Hm.
  destruct (le_lt_dec Lp.[S u0] (S Lp.[u0])) as [Hs|Hs].
  { rewrite for_nil by lia. apply wp_ret. apply (G (W, upd vis x (vis.[x] + 1)%Z, upd inq x false, next)). exists []. rewrite app_nil_r. split; [auto|]. split; [simpl; lia|]. split; [intros y []|].
    revert HS0. apply st_in_ext. intros v q Hv. unfold zero2, tm, cnt. rewrite sum_r_nil by lia. now destruct (q =? q0). }
  apply (wp_for I); [lia| | |].
  - exists []. rewrite app_nil_r. split; [auto|]. split; [simpl; lia|]. split; [intros y []|]. exact HS0.
  - intros p [[[W' vis'] inq'] next'] Hp (W1 & -> & -> & HW1 & HS1).
    apply (entry_wp (P ++ [x]) (W ++ W1) q0 u0); auto.
    intros W2 vis2 inq2 HW2 HS2. exists (W1 ++ W2). rewrite app_assoc. split; [auto|]. split; [rewrite app_length; lia|]. split; [|auto].
    intros y Hy. apply in_app_iff in Hy. destruct Hy; auto.
  - intros [[[W' vis'] inq'] next'] (W1 & -> & -> & HW1 & HS1). apply (G (W ++ W1, vis', inq', next + length W1)). exists W1. split; [auto|]. split; [auto|]. split; [auto|].
    revert HS1. apply st_in_ext. intros v q Hv. unfold zero2, cnt. rewrite sum_r_nil by lia. now destruct (q =? q0).
Qed.
End S.
