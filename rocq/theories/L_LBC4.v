(** Proofs about modified_BFS_CSC inside a slab. *)
From Verif Require Import Base Lib Lib2 Spec L_LevelSet L_LevelSet2 M_LBC L_LBC2 L_LBC3.
From Coq Require Import ZifyBool ZifyNat.

Section Bfs.
Variables (n : nat) (Lp Li : list nat).
Hypothesis W : wf_csc n Lp Li.
Hypothesis D1 : one_diag n Lp Li.
Variables (levelNo : nat) (lp ls n2l : list nat).
Hypothesis LO : lev_ok n Lp Li levelNo lp ls n2l.
Variables (a b : nat).
Hypothesis Ha : a < levelNo.
Hypothesis Hab : a < b.
Variables (n2p : list (option nat)) (cc : nat).
Hypothesis Hn2p : length n2p = n.
Hypothesis Hpart : forall v, slab n n2l a b v -> exists c, n2p.[v] = Some c /\ c < cc.
Hypothesis Hcomp : forall u v, slab n n2l a b u -> slab n n2l a b v -> edge n Lp Li u v -> n2p.[v] = n2p.[u].

Local Notation slab := (slab n n2l a b).

(** processed nodes *)
Definition done_ (vis : list bool) (v : nat) : bool := vis.[v] && (n2l.[v] <? b).

Record bfs_inv (F : nat -> Prop) (queue : list nat) (deg : list Z) (vis : list bool) (lists : list (list nat)) : Prop := {
  bi_deg : length deg = n;
  bi_vis : length vis = n;
  bi_lists : length lists = cc;
  bi_low : forall v, v < n -> n2l.[v] < a -> vis.[v] = true;
  bi_up : forall v, v < n -> b <= n2l.[v] -> vis.[v] = true;
  bi_d : forall v, v < n -> deg.[v] = (Z.of_nat (remdeg n Lp Li (done_ vis) v) - Z.of_nat (b2n (done_ vis v)))%Z;
  bi_nodup : NoDup queue;
  bi_q : forall v, In v queue -> slab v /\ vis.[v] = false /\ forall u, edge n Lp Li u v -> done_ vis u = true;
  bi_ready : forall v, slab v -> vis.[v] = false -> n2l.[v] <> a -> (forall u, edge n Lp Li u v -> done_ vis u = true) -> In v queue;
  bi_leaf : forall v, slab v -> n2l.[v] = a -> (vis.[v] = true \/ In v queue <-> F v);
  bi_nd : forall c, c < cc -> NoDup lists.[c];
  bi_in : forall c v, c < cc -> (In v lists.[c] <-> slab v /\ vis.[v] = true /\ n2p.[v] = Some c);
  bi_ord : forall c pre v post, c < cc -> lists.[c] = pre ++ v :: post -> forall u, slab u -> edge n Lp Li u v -> In u pre }.

Lemma remdeg_pos1 D v : v < n -> 1 <= remdeg n Lp Li D v.
Proof.
  intros Hv. unfold remdeg.
  pose proof (sum_r_ge_one 0 n (fun u => if D u && negb (u =? v) then 0 else mult Lp Li u v) v ltac:(lia)) as H.
  simpl in H. rewrite Nat.eqb_refl in H. simpl in H. rewrite andb_false_r in H.
  rewrite (mult_diag n Lp Li D1 v Hv) in H. auto.
Qed.

Lemma cnt_mult x r v : Lp.[x] <= r -> r <= Lp.[S x] -> cnt Lp.[x] r (fun k => Li.[k] =? v) <= mult Lp Li x v.
Proof. intros A B. unfold mult. rewrite (cnt_split Lp.[x] r Lp.[S x]) by lia. lia. Qed.

Lemma NoDup_app_intro {A} (l l' : list A) : NoDup l -> NoDup l' -> (forall x, In x l -> ~ In x l') -> NoDup (l ++ l').
Proof.
  intros H H' HD. induction H as [|x t Hx Ht IH]; simpl; auto. constructor.
  - rewrite in_app_iff. intros [C|C]; [auto|]. apply (HD x); [now left|auto].
  - apply IH. intros y Hy. apply HD. now right.
Qed.

Lemma app_cons_split {A} (l1 l2 pre post : list A) x y : l1 ++ [x] = pre ++ y :: post ->
  (post = [] /\ pre = l1 /\ x = y) \/ exists post', post = post' ++ [x] /\ l1 = pre ++ y :: post'.
Proof.
  intros E. destruct post as [|z t] using rev_ind.
  - left. apply app_inj_tail in E. destruct E. auto.
  - right. clear IHt. exists t. rewrite app_comm_cons, app_assoc in E. apply app_inj_tail in E. destruct E as [E1 E2]. subst. auto.
Qed.

Lemma bfs_pop_wp F x q deg vis lists : bfs_inv F (x :: q) deg vis lists ->
  wp (bfs_pop Lp Li n2p (x :: q, deg, vis, lists)) (fun '(q', deg', vis', lists') =>
    bfs_inv F q' deg' vis' lists' /\ cnt 0 n (fun v => negb vis'.[v]) < cnt 0 n (fun v => negb vis.[v])).
Proof.
  intros [B1 B2 B3 B4 B5 B6 B7 B8 B9 B10 B11 B12 B13].
  destruct (B8 x ltac:(now left)) as (Sx & Vx & Px). pose proof Sx as (Hx & Hxl).
  destruct (Hpart x Sx) as (c & Ec & Hc). pose proof W as (WL & W0 & Wm & WLi & Wlt).
  unfold bfs_pop. wp1. wp1; [lia|]. wp1. wp1; [lia|]. rewrite Ec. wp1. wp1; [lia|]. wp1. wp1; [lia|].
  wp1. wp1; [lia|]. wp1. wp1; [lia|]. wp1.
  set (vis' := upd vis x true). assert (HV' : length vis' = n) by (unfold vis'; now rewrite upd_length).
  assert (Vv : forall v, vis'.[v] = if v =? x then true else vis.[v]) by (intros v; unfold vis'; apply aget_upd; lia).
  assert (Dn : forall v, done_ vis' v = done_ vis v || (v =? x)).
  { intros v. unfold done_. rewrite Vv. destruct (Nat.eqb_spec v x) as [->|]; [|now rewrite orb_false_r].
    rewrite orb_true_r. simpl. apply Nat.ltb_lt. lia. }
  assert (Dx : done_ vis x = false) by (unfold done_; rewrite Vx; auto).
  (* degrees after the whole column *)
  assert (Rd : forall v, v < n -> (deg.[v] - Z.of_nat (mult Lp Li x v) =
     Z.of_nat (remdeg n Lp Li (done_ vis') v) - Z.of_nat (b2n (done_ vis' v)))%Z).
  { intros v Hv. rewrite B6 by auto.
    rewrite (remdeg_ext n Lp Li (done_ vis') (fun u => done_ vis u || (u =? x)) v) by (intros; apply Dn).
    pose proof (remdeg_step n Lp Li (done_ vis) x v Hx Dx) as St. rewrite Dn.
    destruct (Nat.eqb_spec x v) as [<-|Hne].
    - rewrite (mult_diag n Lp Li D1) by auto. rewrite Dx, Nat.eqb_refl. simpl. lia.
    - replace (v =? x) with false by lia. rewrite orb_false_r. lia. }
  assert (Rpos : forall v, v < n -> vis'.[v] = false -> (1 <= deg.[v] - Z.of_nat (mult Lp Li x v))%Z).
  { intros v Hv Vf. rewrite Rd by auto. unfold done_ at 2. rewrite Vf. simpl.
    pose proof (remdeg_pos1 (done_ vis') v Hv). lia. }
  apply (wp_for (fun r '(q', deg') => length deg' = n /\
     (forall v, v < n -> deg'.[v] = (deg.[v] - Z.of_nat (cnt Lp.[x] r (fun k => (Li.[k] =? v)%nat)))%Z) /\
     exists nq, q' = q ++ nq /\ NoDup nq /\
       forall v, In v nq <-> v < n /\ vis'.[v] = false /\ 1 <= cnt Lp.[x] r (fun k => Li.[k] =? v) /\ deg'.[v] = 1%Z)).
  - now apply Wm.
  - splits; auto.
    + intros v Hv. rewrite cnt_all_false by (intros; lia). lia.
    + exists []. splits; auto; [now rewrite app_nil_r|constructor|]. intros v. split; [intros []|].
      intros (_ & _ & H & _). rewrite cnt_all_false in H by (intros; lia). lia.
  - intros r [q' deg'] Hr (I1 & I2 & nq & -> & I3 & I4).
    destruct (wf_col_lt n Lp Li W x r Hx ltac:(lia)) as [Hr1 Hr2]. pose proof (Wlt r Hr2) as Hcn.
    set (cn := Li.[r]) in *.
    assert (Cn : forall v, cnt Lp.[x] (S r) (fun k => Li.[k] =? v) = cnt Lp.[x] r (fun k => Li.[k] =? v) + b2n (cn =? v)).
    { intros v. rewrite cnt_S by lia. reflexivity. }
    wp1. wp1; [lia|]. fold cn. wp1. wp1; [lia|]. wp1. wp1; [lia|].
    assert (Dv : forall v, v < n -> (upd deg' cn (deg'.[cn] - 1)%Z).[v] = (deg.[v] - Z.of_nat (cnt Lp.[x] (S r) (fun k => (Li.[k] =? v)%nat)))%Z).
    { intros v Hv. rewrite Cn. rewrite aget_upd by lia. destruct (Nat.eqb_spec v cn) as [->|Hne].
      - rewrite Nat.eqb_refl. rewrite I2 by auto. simpl. lia.
      - replace (cn =? v) with false by lia. rewrite I2 by auto. simpl. lia. }
    assert (Hge : vis'.[cn] = false -> (2 <= deg'.[cn])%Z).
    { intros Vf. specialize (Rpos cn Hcn Vf). pose proof (cnt_mult x (S r) cn ltac:(lia) ltac:(lia)).
      rewrite Cn, Nat.eqb_refl in H. simpl in H. rewrite I2 by auto. lia. }
    destruct (Z.eqb_spec (deg'.[cn] - 1) 1) as [E1|E1].
    + wp1. wp1; [lia|]. destruct vis'.[cn] eqn:Vc.
      * wp1. splits; [now rewrite upd_length|auto|]. exists nq. splits; auto. intros v. rewrite I4.
        assert (HH : vis'.[v] = false -> v <> cn) by congruence.
        split; intros (A1 & A2 & A3 & A4); splits; auto.
        -- rewrite Cn. lia.
        -- rewrite aget_upd_ne by (apply not_eq_sym; auto). auto.
        -- rewrite Cn in A3. replace (cn =? v) with false in A3 by (specialize (HH A2); lia). simpl in A3. lia.
        -- rewrite aget_upd_ne in A4 by (apply not_eq_sym; auto). auto.
      * wp1. splits; [now rewrite upd_length|auto|]. exists (nq ++ [cn]). splits; [now rewrite app_assoc| |].
        -- apply NoDup_snoc; auto. rewrite I4. intros (_ & _ & _ & A). lia.
        -- intros v. rewrite in_app_iff. rewrite I4. simpl. destruct (Nat.eq_dec v cn) as [->|Hne].
           ++ split; auto. intros _. splits; auto.
              ** rewrite Cn, Nat.eqb_refl. simpl. lia.
              ** rewrite aget_upd_eq by lia. auto.
           ++ rewrite aget_upd_ne by auto. rewrite Cn. replace (cn =? v) with false by lia. simpl. rewrite Nat.add_0_r.
              split; [intros [A|[A|[]]]; [auto|congruence]|auto].
    + wp1. splits; [now rewrite upd_length|auto|]. exists nq. splits; auto. intros v. rewrite I4.
      destruct (Nat.eq_dec v cn) as [->|Hne].
      * rewrite aget_upd_eq by lia. split; intros (A1 & A2 & A3 & A4); exfalso.
        -- specialize (Hge A2). lia.
        -- auto.
      * rewrite aget_upd_ne by auto. rewrite Cn. replace (cn =? v) with false by lia. simpl. rewrite Nat.add_0_r. tauto.
  - intros [q' deg'] (I1 & I2 & nq & -> & I3 & I4). wp1.
    assert (I4' : forall v, In v nq <-> v < n /\ vis'.[v] = false /\ edge n Lp Li x v /\ (forall u, edge n Lp Li u v -> done_ vis' u = true)).
    { intros v. rewrite I4. fold (mult Lp Li x v). split.
      - intros (A1 & A2 & A3 & A4). splits; auto.
        + apply (mult_edge n Lp Li); auto. intros <-. rewrite Vv, Nat.eqb_refl in A2. discriminate.
        + apply (remdeg_one_iff n Lp Li D1); auto. rewrite I2 in A4 by auto. fold (mult Lp Li x v) in A4. rewrite Rd in A4 by auto.
          unfold done_ at 2 in A4. rewrite A2 in A4. simpl in A4. lia.
      - intros (A1 & A2 & A3 & A4). assert (Hne : x <> v) by apply A3. splits; auto.
        + apply (mult_edge n Lp Li) in A3; auto.
        + apply (remdeg_one_iff n Lp Li D1) in A4; auto. rewrite I2 by auto. fold (mult Lp Li x v). rewrite Rd by auto.
          unfold done_ at 2. rewrite A2. simpl. lia. }
    assert (Nx : ~ In x q) by (inversion B7; auto). assert (NDq : NoDup q) by (inversion B7; auto).
    assert (Slv : forall v, edge n Lp Li x v -> v < n -> vis'.[v] = false -> slab v /\ n2l.[v] <> a).
    { intros v He Hv Vf. pose proof (lo_edge _ _ _ _ _ _ _ LO x v He). split; [|lia]. split; [auto|]. split; [lia|].
      destruct (le_lt_dec b n2l.[v]) as [L|L]; auto. exfalso. rewrite Vv in Vf. destruct (v =? x); [discriminate|].
      rewrite B5 in Vf by auto. discriminate. }
    split.
    + constructor; auto.
      * now rewrite upd_length.
      * intros v Hv Hl. rewrite Vv. destruct (v =? x); auto.
      * intros v Hv Hl. rewrite Vv. destruct (v =? x); auto.
      * intros v Hv. rewrite I2 by auto. fold (mult Lp Li x v). now apply Rd.
      * apply NoDup_app_intro; auto. intros v Hv Hn. apply I4' in Hn. destruct Hn as (_ & _ & He & _).
        destruct (B8 v ltac:(now right)) as (_ & _ & Hp). specialize (Hp x He). congruence.
      * intros v Hv. apply in_app_iff in Hv. destruct Hv as [Hv|Hv].
        -- destruct (B8 v ltac:(now right)) as (A & B & C). splits; auto.
           ++ rewrite Vv. destruct (Nat.eqb_spec v x) as [->|]; [contradiction|auto].
           ++ intros u Hu. rewrite Dn, C by auto. auto.
        -- apply I4' in Hv. destruct Hv as (A & B & C & D). splits; auto. now apply Slv.
      * intros v Sv Vf Hl Hp. apply in_app_iff. destruct (le_lt_dec 1 (mult Lp Li x v)) as [M|M].
        -- destruct (Nat.eq_dec x v) as [<-|Hne]; [rewrite Vv, Nat.eqb_refl in Vf; discriminate|].
           right. apply I4'. splits; auto; [apply Sv|]. apply (mult_edge n Lp Li); auto.
        -- left. assert (In v (x :: q)); [|destruct H as [<-|]; [rewrite Vv, Nat.eqb_refl in Vf; discriminate|auto]].
           apply B9; auto.
           ++ rewrite Vv in Vf. destruct (v =? x); [discriminate|auto].
           ++ intros u Hu. specialize (Hp u Hu). rewrite Dn in Hp. apply orb_true_iff in Hp. destruct Hp as [Hp|Hp]; auto.
              apply Nat.eqb_eq in Hp. subst u. exfalso. pose proof Hu as (_ & _ & Hne). apply (mult_edge n Lp Li) in Hu; auto. lia.
      * intros v Sv Hl. rewrite <- (B10 v Sv Hl). rewrite Vv, in_app_iff. simpl. destruct (Nat.eqb_spec v x) as [->|Hne].
        -- split; auto.
        -- split; [intros [A|[A|A]]; auto|intros [A|[A|A]]; auto; congruence]. exfalso. apply I4' in A. destruct A as (A1 & A2 & A3 & _).
           now destruct (Slv v A3 A1 A2).
      * intros c' Hc'. rewrite aget_upd by lia. destruct (Nat.eqb_spec c' c) as [->|]; auto. apply NoDup_snoc; auto.
        rewrite B12 by auto. intros (_ & A & _). congruence.
      * intros c' v Hc'. rewrite aget_upd by lia. rewrite Vv. destruct (Nat.eqb_spec c' c) as [->|Hne].
        -- rewrite in_app_iff, B12 by auto. simpl. destruct (Nat.eqb_spec v x) as [->|Hv]; [tauto|].
           split; [intros [A|[A|[]]]; [auto|congruence]|auto].
        -- rewrite B12 by auto. destruct (Nat.eqb_spec v x) as [->|Hv]; [|tauto].
           split; intros (A & B & C); [congruence|]. congruence.
      * intros c' pre v post Hc' E u Su He. rewrite aget_upd in E by lia. destruct (Nat.eqb_spec c' c) as [->|Hne]; [|eauto].
        apply app_cons_split in E; [|exact []]. destruct E as [(-> & -> & <-)|(post' & -> & E)]; [|eauto].
        rewrite B12 by auto. specialize (Px u He). unfold done_ in Px. apply andb_true_iff in Px. destruct Px as [Vu _].
        splits; auto. rewrite <- (Hcomp u x Su Sx He). auto.
    + pose proof (cnt_upd_true 0 n (fun v => negb vis'.[v]) (fun v => negb vis.[v]) x ltac:(lia)) as H.
      rewrite H; [lia| | |].
      * simpl. rewrite Vv, Nat.eqb_refl. auto.
      * simpl. rewrite Vx. auto.
      * intros i Hi Hne. simpl. rewrite Vv. destruct (Nat.eqb_spec i x); [contradiction|auto].
Qed.

Lemma bfs_wp deg vis (Q : list Z * list bool * list (list nat) -> Prop) :
  length deg = n -> length vis = n ->
  (forall v, v < n -> n2l.[v] < a \/ b <= n2l.[v] -> vis.[v] = true) ->
  (forall v, slab v -> vis.[v] = false) ->
  (forall v, v < n -> deg.[v] = (Z.of_nat (remdeg n Lp Li (done_ vis) v) - Z.of_nat (b2n (done_ vis v)))%Z) ->
  (forall deg' vis' lists, length deg' = n -> length vis' = n -> length lists = cc ->
     (forall v, v < n -> vis'.[v] = true) ->
     (forall v, v < n -> deg'.[v] = (Z.of_nat (remdeg n Lp Li (done_ vis') v) - Z.of_nat (b2n (done_ vis' v)))%Z) ->
     (forall c, c < cc -> NoDup lists.[c]) ->
     (forall c v, c < cc -> (In v lists.[c] <-> slab v /\ n2p.[v] = Some c)) ->
     (forall c pre v post, c < cc -> lists.[c] = pre ++ v :: post -> forall u, slab u -> edge n Lp Li u v -> In u pre) ->
     Q (deg', vis', lists)) ->
  wp (modified_BFS_CSC n Lp Li deg vis n2p lp ls a (repeat [] cc)) Q.
Proof.
  intros H1 H2 H3 H4 H5 HQ. unfold modified_BFS_CSC.
  pose proof (lo_lp _ _ _ _ _ _ _ LO) as L1. pose proof (lo_ls _ _ _ _ _ _ _ LO) as L2.
  pose proof (lo_mono _ _ _ _ _ _ _ LO a (S a) ltac:(lia) ltac:(lia)) as Hle. pose proof (lo_le _ _ _ _ _ _ _ LO (S a) ltac:(lia)) as Hn.
  wp1. wp1; [lia|]. wp1. wp1; [lia|].
  apply (wp_for (fun ii '(deg, vis, lists) => bfs_inv (fun v => exists i, lp.[a] <= i < ii /\ ls.[i] = v) [] deg vis lists)).
  - lia.
  - constructor; auto.
    + apply repeat_length.
    + constructor.
    + intros v [].
    + intros v Sv Vf Hl Hp. destruct Sv as (Hv & Hv1). exfalso.
      destruct (lo_pred _ _ _ _ _ _ _ LO v Hv ltac:(lia)) as (u & He & Eu). specialize (Hp u He).
      destruct (wf_edge_lt n Lp Li W u v He) as [Hu _].
      unfold done_ in Hp. rewrite H4 in Hp by (split; [auto|lia]). discriminate.
    + intros v Sv Hl. rewrite H4 by auto. split; [intros [A|[]]; discriminate|]. intros (i & Hi & _). lia.
    + intros c Hc. rewrite aget_repeat by auto. constructor.
    + intros c v Hc. rewrite aget_repeat by auto. split; [intros []|]. intros (A & B & _). rewrite H4 in B by auto. discriminate.
    + intros c pre v post Hc E. rewrite aget_repeat in E by auto. destruct pre; discriminate.
  - intros ii [[dg vs] lists] Hii I. pose proof (lo_lt _ _ _ _ _ _ _ LO ii ltac:(lia)) as Hcur.
    pose proof (lo_at _ _ _ _ _ _ _ LO a ii Ha ltac:(lia)) as Hlv.
    wp1. wp1; [lia|]. set (cur := ls.[ii]) in *. wp1.
    assert (Scur : slab cur) by (split; [auto|lia]).
    assert (I' : bfs_inv (fun v => exists i, lp.[a] <= i < S ii /\ ls.[i] = v) [cur] dg vs lists).
    { destruct I as [B1 B2 B3 B4 B5 B6 B7 B8 B9 B10 B11 B12 B13].
      assert (Vc : vs.[cur] = false).
      { destruct (vs.[cur]) eqn:E; auto. assert (HF : exists i, lp.[a] <= i < ii /\ ls.[i] = cur) by (apply B10; auto).
        destruct HF as (i & Hi & Ei). destruct (lo_part _ _ _ _ _ _ _ LO) as (_ & _ & _ & _ & Inj).
        assert (i = ii) by (apply Inj; auto; lia). lia. }
      constructor; auto.
      - constructor; [intros []|constructor].
      - intros v [<-|[]]. splits; auto. intros u He. pose proof (lo_edge _ _ _ _ _ _ _ LO u cur He).
        destruct (wf_edge_lt n Lp Li W u cur He) as [Hu _]. unfold done_. rewrite B4 by (auto; lia). simpl. apply Nat.ltb_lt. lia.
      - intros v A B C D. destruct (B9 v A B C D).
      - intros v Sv Hl. pose proof (B10 v Sv Hl) as HH. simpl. split.
        + intros [A|[<-|[]]].
          * destruct (proj1 HH (or_introl A)) as (i & Hi & Ei). exists i. split; auto. lia.
          * exists ii. split; auto. lia.
        + intros (i & Hi & Ei). destruct (Nat.eq_dec i ii) as [->|]; [auto|].
          assert (HF : exists i, lp.[a] <= i < ii /\ ls.[i] = v) by (exists i; split; [lia|auto]).
          apply HH in HF. destruct HF as [|[]]. auto. }
    apply (wp_while (fun '(q, dg, vs, lists) => bfs_inv (fun v => exists i, lp.[a] <= i < S ii /\ ls.[i] = v) q dg vs lists)
      (fun '(q, dg, vs, lists) => cnt 0 n (fun v => negb vs.[v]))).
    + exact I'.
    + pose proof (cnt_le 0 n (fun v => negb vs.[v])). lia.
    + intros [[[q dg'] vs'] lists'] J. wp1. destruct q as [|x q]; cbn [length Nat.eqb negb].
      * wp1. exact J.
      * eapply wp_mono; [apply (bfs_pop_wp _ x q _ _ _ J)|]. intros [[[q' d'] v'] l'] K. exact K.
  - intros [[dg vs] lists] [B1 B2 B3 B4 B5 B6 B7 B8 B9 B10 B11 B12 B13].
    assert (All : forall d v, slab v -> n2l.[v] <= a + d -> vs.[v] = true).
    { induction d as [|d IH]; intros v Hv Hd; pose proof Hv as (Hvn & Hv1 & Hv2).
      - assert (Ev : n2l.[v] = a) by lia. destruct (lo_in _ _ _ _ _ _ _ LO v Hvn) as (Hl & i & Hi & Ei).
        assert (HF : exists i, lp.[a] <= i < lp.[S a] /\ ls.[i] = v) by (exists i; rewrite Ev in Hi; auto).
        apply B10 in HF; auto. destruct HF as [|[]]. auto.
      - destruct (le_lt_dec n2l.[v] (a + d)) as [L|L]; [apply IH; auto|].
        destruct vs.[v] eqn:E; auto. exfalso. apply (B9 v Hv E); [lia|]. intros u He.
        pose proof (lo_edge _ _ _ _ _ _ _ LO u v He). destruct (wf_edge_lt n Lp Li W u v He) as [Hun _].
        unfold done_. replace (n2l.[u] <? b) with true by lia. rewrite andb_true_r.
        destruct (le_lt_dec a n2l.[u]) as [L'|L']; [|apply B4; auto]. apply IH; [split; [auto|lia]|lia]. }
    assert (Av : forall v, v < n -> vs.[v] = true).
    { intros v Hv. destruct (le_lt_dec a n2l.[v]) as [L'|L']; [|apply B4; auto]. destruct (le_lt_dec b n2l.[v]) as [L|L]; [apply B5; auto|].
      apply (All n2l.[v]); [split; [auto|lia]|lia]. }
    apply HQ; auto. intros c v Hc. rewrite B12 by auto. split; [tauto|]. intros [A B]. splits; auto. apply Av. apply A.
Qed.

End Bfs.
