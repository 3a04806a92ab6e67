(** The level search of M_Fuse.v, for any successor lists. *)
From Verif Require Import Base Lib Lib2 Spec L_LBC5 M_Fuse L_Multi2.
From Coq Require Import ZifyBool ZifyNat Permutation.

Lemma list_sum_app' l l' : list_sum (l ++ l') = list_sum l + list_sum l'.
Proof. induction l; simpl; lia. Qed.
Lemma list_sum_perm l l' : Permutation l l' -> list_sum l = list_sum l'.
Proof. induction 1; simpl; lia. Qed.
Lemma firstn_S_aget (l : list nat) i : i < length l -> firstn (S i) l = firstn i l ++ [l.[i]].
Proof. revert i. induction l as [|a l IH]; intros [|i] H; simpl in H; try lia; [reflexivity|]. rewrite aget_cons_S. cbn [firstn app]. f_equal. apply IH. lia. Qed.
Lemma skipn_S_aget (l : list nat) i : i < length l -> skipn i l = l.[i] :: skipn (S i) l.
Proof. revert i. induction l as [|a l IH]; intros [|i] H; simpl in H; try lia; [reflexivity|]. rewrite aget_cons_S. cbn [skipn]. apply IH. lia. Qed.

Section Count.
Variable succ : nat -> list nat.
Definition into (v u : nat) : nat := if u =? v then 0 else count_occ Nat.eq_dec (succ u) v.
Definition cnt (P : list nat) (v : nat) : nat := list_sum (map (into v) P).

Lemma cnt_app P P' v : cnt (P ++ P') v = cnt P v + cnt P' v.
Proof. unfold cnt. now rewrite map_app, list_sum_app'. Qed.
Lemma cnt_one x v : cnt [x] v = into v x.
Proof. unfold cnt. simpl. lia. Qed.
Lemma cnt_zero P v : (forall u, In u P -> into v u = 0) -> cnt P v = 0.
Proof. unfold cnt. induction P as [|u P IH]; intros H; [auto|]. simpl. rewrite (H u) by now left. rewrite IH; auto. intros w Hw. apply H. now right. Qed.
Lemma cnt_ge P u v : In u P -> into v u <= cnt P v.
Proof. unfold cnt. induction P as [|w P IH]; [intros []|]. intros [->|H]; simpl; [lia|]. specialize (IH H). lia. Qed.
Lemma into_pos u v : 0 < into v u <-> u <> v /\ In v (succ u).
Proof.
  unfold into. destruct (Nat.eqb_spec u v) as [->|Hne]; [split; [lia|tauto]|].
  rewrite (count_occ_In Nat.eq_dec). unfold gt. tauto.
Qed.

Variable nodes : list nat.
Hypothesis ND : NoDup nodes.

Definition rest (P : list nat) : list nat := filter (fun v => negb (existsb (Nat.eqb v) P)) nodes.
Lemma rest_In P v : In v (rest P) <-> In v nodes /\ ~ In v P.
Proof.
  unfold rest. rewrite filter_In. destruct (existsb (Nat.eqb v) P) eqn:E; cbn [negb]; split; intros [H1 H2]; split; auto; try discriminate.
  - exfalso. apply H2. apply existsb_exists in E. destruct E as (x & Hx & Ex). apply Nat.eqb_eq in Ex. now subst.
  - intros H. assert (existsb (Nat.eqb v) P = true); [|congruence]. apply existsb_exists. exists v. split; auto. apply Nat.eqb_refl.
Qed.
Lemma NoDup_app' (l l' : list nat) : NoDup l -> NoDup l' -> (forall x, In x l -> ~ In x l') -> NoDup (l ++ l').
Proof.
  induction l as [|a l IH]; intros H1 H2 H3; [auto|]. inversion H1; subst. cbn [app]. constructor.
  - rewrite in_app_iff. intros [H|H]; [auto|]. apply (H3 a); [now left|auto].
  - apply IH; auto. intros x Hx. apply H3. now right.
Qed.
Lemma split_perm P : NoDup P -> incl P nodes -> Permutation nodes (P ++ rest P).
Proof.
  intros H1 H2. apply NoDup_Permutation; auto.
  - apply NoDup_app'; auto; [apply NoDup_filter; auto|]. intros x Hx Hr. apply rest_In in Hr. tauto.
  - intros x. rewrite in_app_iff, rest_In. destruct (in_dec Nat.eq_dec x P) as [i|i]; split; intros H; auto; destruct H as [H|[H _]]; auto.
Qed.
Lemma cnt_split P v : NoDup P -> incl P nodes -> cnt nodes v = cnt P v + cnt (rest P) v.
Proof. intros H1 H2. rewrite <- cnt_app. unfold cnt. apply list_sum_perm, Permutation_map, split_perm; auto. Qed.
Lemma cnt_full P v u : NoDup P -> incl P nodes -> cnt P v = cnt nodes v -> In u nodes -> u <> v -> In v (succ u) -> In u P.
Proof.
  intros H1 H2 H3 Hu Hne Hs. destruct (in_dec Nat.eq_dec u P) as [H|H]; auto. exfalso. pose proof (cnt_split P v H1 H2).
  pose proof (cnt_ge (rest P) u v ltac:(apply rest_In; auto)). pose proof (proj2 (into_pos u v) (conj Hne Hs)). lia.
Qed.
Lemma cnt_all P v : NoDup P -> incl P nodes -> (forall u, In u nodes -> u <> v -> In v (succ u) -> In u P) -> cnt P v = cnt nodes v.
Proof.
  intros H1 H2 H3. rewrite (cnt_split P v) by auto. rewrite (cnt_zero (rest P) v); [lia|]. intros u Hu. apply rest_In in Hu. destruct Hu as [Hu Hn].
  destruct (Nat.eq_dec (into v u) 0); auto. exfalso. apply Hn. pose proof (proj1 (into_pos u v) ltac:(lia)). apply H3; tauto.
Qed.
End Count.

Section Bfs.
Variables (N : nat) (nodes : list nat) (succ ext : nat -> list nat) (deg : list Z) (late : nat -> bool) (lev : nat -> nat).
Variables targets extra : nat -> res (list nat).
Notation cnt := (cnt succ).
Hypothesis ND : NoDup nodes.
Hypothesis NB : forall v, In v nodes -> v < N.
Hypothesis TG : forall v, In v nodes -> targets v = Ok (succ v).
Hypothesis EX : forall v, In v nodes -> extra v = Ok (ext v).
Hypothesis SN : forall u v, In u nodes -> In v (succ u) -> In v nodes.
Hypothesis DL : length deg = N.
Hypothesis DN : forall v, In v nodes -> late v = false -> deg.[v] = Z.of_nat (cnt nodes v).
Hypothesis DT : forall v, In v nodes -> late v = true -> (Z.of_nat (cnt nodes v + count_occ Nat.eq_dec (succ v) v + 1) < deg.[v])%Z.
Hypothesis LA : forall u v, In u nodes -> In v (succ u) -> u <> v -> lev u < lev v.
Hypothesis LB : forall v, In v nodes -> late v = false -> 0 < lev v -> exists u, In u nodes /\ u <> v /\ In v (succ u) /\ S (lev u) = lev v.
Hypothesis EN : forall u v, In u nodes -> In v (ext u) -> In v nodes /\ late v = true /\ lev v = S (lev u).
Hypothesis EU : forall u u' v, In u nodes -> In u' nodes -> In v (ext u) -> In v (ext u') -> u = u'.
Hypothesis ED : forall u, In u nodes -> NoDup (ext u).
Hypothesis EP : forall v, In v nodes -> late v = true -> exists u, In u nodes /\ In v (ext u).

Definition bst (P W : list nat) (vis : list Z) (inq : list bool) : Prop :=
  length vis = N /\ length inq = N /\ NoDup (P ++ W) /\ incl (P ++ W) nodes /\
  (forall v, In v nodes -> (inq.[v] = true <-> In v W)) /\
  (forall v, In v nodes -> ~ In v P -> vis.[v] = Z.of_nat (cnt P v)).

Lemma bst_P P W vis inq : bst P W vis inq -> NoDup P /\ incl P nodes.
Proof.
  intros (_ & _ & H3 & H4 & _). split; [|intros x Hx; apply H4; apply in_app_iff; auto].
  clear -H3. induction P as [|a P IH]; [constructor|]. cbn [app] in H3. inversion H3; subst. constructor; auto. intros H. apply H1. apply in_app_iff; auto.
Qed.

(** the entries of node [x] *)
Lemma visit_wp L P x W vis inq next (Q : list nat * list Z * list bool * nat -> Prop) :
  bst P (x :: W) vis inq -> lev x = L -> (forall v, In v P -> lev v <= L) -> (forall v, In v nodes -> lev v < L -> In v P) ->
  (forall Nx vis' inq', bst (P ++ [x]) (W ++ Nx) vis' inq' ->
     (forall v, In v Nx <-> In v nodes /\ late v = false /\ v <> x /\ ~ In v P /\ ~ In v W /\ In v (succ x) /\ cnt (P ++ [x]) v = cnt nodes v) ->
     Q (W ++ Nx, vis', inq', next + length Nx)) ->
  wp (foreach (succ x) (fun o s => visit_one deg s o) (W, upd vis x (vis.[x] + 1)%Z, upd inq x false, next)) Q.
Proof.
  intros HB HX HP HPL HQ. destruct (bst_P _ _ _ _ HB) as [NP IP]. pose proof HB as (B1 & B2 & B3 & B4 & B5 & B6).
  assert (Xn : In x nodes) by (apply B4; apply in_app_iff; right; now left). pose proof (NB x Xn) as XN.
  assert (XP : ~ In x P /\ ~ In x W).
  { apply NoDup_remove in B3. destruct B3 as [_ B3]. rewrite in_app_iff in B3. tauto. }
  destruct XP as [XP XW].
  assert (NPx : NoDup (P ++ [x])). { apply NoDup_app'; auto; [repeat constructor; intros []|]. intros y Hy [->|[]]. auto. }
  assert (IPx : incl (P ++ [x]) nodes) by (intros y Hy; apply in_app_iff in Hy; destruct Hy as [Hy|[<-|[]]]; auto).
  assert (CX : late x = false -> cnt P x = cnt nodes x).
  { intros Hl. apply cnt_all; auto. intros u Hu Hne Hs. apply HPL; auto. rewrite <- HX. apply LA; auto. }
  assert (CP : forall v, v <> x -> cnt (P ++ [x]) v = cnt P v + count_occ Nat.eq_dec (succ x) v).
  { intros v Hv. rewrite cnt_app, cnt_one. unfold into. destruct (Nat.eqb_spec x v); [congruence|auto]. }
  assert (CLE : forall v, cnt (P ++ [x]) v <= cnt nodes v) by (intros v; rewrite (cnt_split succ nodes ND (P ++ [x]) v); auto; lia).
  assert (CLP : forall v, cnt P v <= cnt nodes v) by (intros v; rewrite (cnt_split succ nodes ND P v); auto; lia).
  apply (wp_foreach (fun t (s : list nat * list Z * list bool * nat) => let '(q, vis', inq', nx) := s in exists Nx, q = W ++ Nx /\ nx = next + length Nx /\
     length vis' = N /\ length inq' = N /\ NoDup (P ++ [x] ++ W ++ Nx) /\
     (forall v, In v nodes -> (inq'.[v] = true <-> In v (W ++ Nx))) /\
     (forall v, In v nodes -> ~ In v P -> v <> x -> vis'.[v] = Z.of_nat (cnt P v + count_occ Nat.eq_dec t v)) /\
     vis'.[x] = Z.of_nat (cnt P x + 1 + count_occ Nat.eq_dec t x) /\
     (forall v, In v Nx <-> In v nodes /\ late v = false /\ v <> x /\ ~ In v P /\ ~ In v W /\ In v t /\ cnt P v + count_occ Nat.eq_dec t v = cnt nodes v))).
  - exists []. rewrite app_nil_r, !upd_length. cbn [length]. rewrite Nat.add_0_r. splits; auto.
    + intros v Hv. rewrite aget_upd by lia. destruct (Nat.eqb_spec v x) as [->|Hne]; [split; [discriminate|intros H; now exfalso]|].
      rewrite B5 by auto. cbn [In]. split; [intros [H|H]; [congruence|auto]|auto].
    + intros v Hv HvP Hne. rewrite aget_upd_ne by auto. rewrite B6 by auto. cbn [count_occ]. lia.
    + rewrite aget_upd_eq by lia. rewrite B6 by auto. cbn [count_occ]. lia.
    + intros v. split; [intros []|]. intros (_ & _ & _ & _ & _ & [] & _).
  - intros t o post [[[q vis'] inq'] nx] Et (Nx & -> & -> & I1 & I2 & I3 & I4 & I5 & I6 & I7).
    assert (Ho : In o (succ x)) by (rewrite Et; apply in_app_iff; right; now left).
    assert (On : In o nodes) by (apply (SN x); auto). pose proof (NB o On) as ON.
    assert (CO : count_occ Nat.eq_dec t o + 1 <= count_occ Nat.eq_dec (succ x) o).
    { rewrite Et, count_occ_app. cbn [count_occ]. destruct (Nat.eq_dec o o); [lia|congruence]. }
    assert (CT : forall v, count_occ Nat.eq_dec (t ++ [o]) v = count_occ Nat.eq_dec t v + if v =? o then 1 else 0).
    { intros v. rewrite count_occ_app. cbn [count_occ]. destruct (Nat.eq_dec o v), (Nat.eqb_spec v o); try congruence; lia. }
    assert (LE : o <> x -> lev x < lev o) by (intros Hne; apply LA; auto).
    assert (OP : ~ In o P). { destruct (Nat.eq_dec o x) as [->|Hne]; auto. intros H. apply HP in H. specialize (LE Hne). lia. }
    unfold visit_one. wp1. wp1; [lia|]. wp1. wp1; [lia|]. wp1. wp1; [lia|]. wp1.
    (* may it be pushed? *)
    assert (PUSH : (vis'.[o] + 1 =? deg.[o])%Z = true -> late o = false /\ o <> x /\ cnt P o + count_occ Nat.eq_dec (t ++ [o]) o = cnt nodes o).
    { intros HE. apply Z.eqb_eq in HE. rewrite CT, Nat.eqb_refl. destruct (Nat.eq_dec o x) as [->|Hne].
      - exfalso. destruct (late x) eqn:El.
        + pose proof (DT x Xn El). pose proof (CLP x). lia.
        + rewrite (DN x Xn El), <- (CX eq_refl) in HE. lia.
      - rewrite I5 in HE by auto. destruct (late o) eqn:El.
        + exfalso. pose proof (DT o On El). pose proof (CLE o). rewrite CP in * by auto. lia.
        + rewrite (DN o On El) in HE. splits; auto. lia. }
    assert (NOLD : o <> x -> In o Nx -> False).
    { intros Hne H. apply I7 in H. destruct H as (_ & _ & _ & _ & _ & _ & H). pose proof (CLE o). rewrite CP in * by auto. lia. }
    assert (VIS : forall v, In v nodes -> ~ In v P -> v <> x -> (upd vis' o (vis'.[o] + 1)%Z).[v] = Z.of_nat (cnt P v + count_occ Nat.eq_dec (t ++ [o]) v)).
    { intros v Hv HvP Hne. rewrite CT, aget_upd by lia. destruct (Nat.eqb_spec v o) as [->|]; rewrite I5 by auto; lia. }
    assert (VISX : (upd vis' o (vis'.[o] + 1)%Z).[x] = Z.of_nat (cnt P x + 1 + count_occ Nat.eq_dec (t ++ [o]) x)).
    { rewrite CT, aget_upd by lia. destruct (Nat.eqb_spec x o) as [<-|]; rewrite I6; lia. }
    assert (NEW : forall v, In v (Nx ++ [o]) -> True) by auto.
    destruct (vis'.[o] + 1 =? deg.[o])%Z eqn:Edeg.
    + destruct (PUSH eq_refl) as (P1 & P2 & P3). wp1. wp1; [lia|]. wp1. destruct (inq'.[o]) eqn:Eq; cbn [negb].
      * wp1. exists Nx. rewrite upd_length. splits; auto. apply I4 in Eq; auto. apply in_app_iff in Eq. destruct Eq as [Eq|Eq]; [|exfalso; auto].
        intros v. rewrite I7. rewrite CT. rewrite in_app_iff. cbn [In]. destruct (Nat.eqb_spec v o) as [->|Hne].
        -- split; [intros (_ & _ & _ & _ & H & _); tauto|intros (_ & _ & _ & _ & H & _); tauto].
        -- split; intros (H1 & H2 & H3 & H4 & H5 & H6 & H7); splits; auto; [lia|destruct H6 as [H6|[H6|[]]]; [auto|congruence]|lia].
      * assert (OQ : ~ In o (W ++ Nx)) by (intros H; apply I4 in H; auto; congruence).
        wp1. wp1; [lia|]. wp1. exists (Nx ++ [o]). rewrite !upd_length, app_length, app_assoc. cbn [length]. splits; auto; try lia.
        -- rewrite !app_assoc. rewrite !app_assoc in I3. apply NoDup_app'; auto; [repeat constructor; intros []|].
           intros y Hy [->|[]]. rewrite !in_app_iff in Hy. rewrite in_app_iff in OQ. cbn [In] in Hy. destruct Hy as [[[Hy|[Hy|[]]]|Hy]|Hy]; auto.
        -- intros v Hv. rewrite aget_upd by lia. rewrite (in_app_iff (W ++ Nx)). cbn [In]. destruct (Nat.eqb_spec v o) as [->|Hne]; [tauto|].
           rewrite I4 by auto. split; [auto|]. intros [H|[H|[]]]; [auto|congruence].
        -- intros v. rewrite in_app_iff, I7, CT. rewrite (in_app_iff t). cbn [In]. destruct (Nat.eqb_spec v o) as [->|Hne].
           ++ rewrite CT, Nat.eqb_refl in P3. rewrite in_app_iff in OQ. split; [intros _; splits; auto; tauto|intros _; auto].
           ++ split.
              ** intros [(H1 & H2 & H3 & H4 & H5 & H6 & H7)|[H|[]]]; [splits; auto; lia|congruence].
              ** intros (H1 & H2 & H3 & H4 & H5 & H6 & H7). left. splits; auto; [destruct H6 as [H6|[H6|[]]]; [auto|congruence]|lia].
    + wp1. wp1. exists Nx. rewrite upd_length. splits; auto. intros v. rewrite I7. rewrite CT. rewrite in_app_iff. cbn [In].
      destruct (Nat.eqb_spec v o) as [->|Hne].
      * split.
        -- intros (H1 & H2 & H3 & H4 & H5 & H6 & H7). exfalso. apply (NOLD H3). apply I7. splits; auto.
        -- intros (H1 & H2 & H3 & H4 & H5 & H6 & H7). exfalso. apply Z.eqb_neq in Edeg. apply Edeg. rewrite (DN o On H2), I5 by auto. lia.
      * split; intros (H1 & H2 & H3 & H4 & H5 & H6 & H7); splits; auto; [lia|destruct H6 as [H6|[H6|[]]]; [auto|congruence]|lia].
  - intros [[[q vis'] inq'] nx] (Nx & -> & -> & I1 & I2 & I3 & I4 & I5 & I6 & I7). apply HQ.
    + unfold bst. rewrite <- app_assoc. splits; auto.
      * intros y Hy. rewrite !in_app_iff in Hy. destruct Hy as [Hy|[[<-|[]]|[Hy|Hy]]]; auto; [apply B4; apply in_app_iff; right; now right|].
        now apply I7 in Hy.
      * intros v Hv HvP. rewrite in_app_iff in HvP. cbn [In] in HvP. assert (v <> x) by (intros ->; tauto). rewrite I5 by tauto. rewrite CP by auto. reflexivity.
    + intros v. rewrite I7. split; intros (H1 & H2 & H3 & H4 & H5 & H6 & H7); splits; auto; rewrite CP in * by auto; auto.
Qed.

(** the nodes found so far in the next level *)
Definition found (L : nat) (P Nw : list nat) : Prop :=
  forall v, In v Nw <-> In v nodes /\ lev v = S L /\ (if late v then exists u, In u P /\ In v (ext u) else cnt P v = cnt nodes v).

Lemma node_wp L P x Qr Nw vis inq levels lev_num (Q : (list nat * list Z * list bool * nat) * list nat * nat -> Prop) :
  bst P (x :: Qr ++ Nw) vis inq -> lev x = L -> (forall v, In v P -> lev v <= L) -> (forall v, In v Qr -> lev v = L) ->
  (forall v, In v nodes -> lev v < L -> In v P) -> found L P Nw -> lev_num < length levels ->
  (forall Nw' vis' inq', bst (P ++ [x]) (Qr ++ Nw') vis' inq' -> found L (P ++ [x]) Nw' ->
     Q ((Qr ++ Nw', vis', inq', length Nw'), upd levels lev_num x, S lev_num)) ->
  wp (fuse_node targets extra deg ((x :: Qr ++ Nw, vis, inq, length Nw), levels, lev_num)) Q.
Proof.
  intros HB HX HP HR HPL HF HL HQ. destruct (bst_P _ _ _ _ HB) as [NP IP]. pose proof HB as (B1 & B2 & B3 & B4 & B5 & B6).
  assert (Xn : In x nodes) by (apply B4; apply in_app_iff; right; now left). pose proof (NB x Xn) as XN.
  unfold fuse_node. wp1. wp1; [lia|]. wp1. wp1; [lia|]. wp1. wp1; [lia|]. wp1. wp1; [lia|]. rewrite TG, EX by auto. wp1.
  wp1. wp1. apply (visit_wp L P x (Qr ++ Nw)); auto. intros Nx vis' inq' HB1 HNx. pose proof HB1 as (C1 & C2 & C3 & C4 & C5 & C6).
  wp1. wp1. destruct (bst_P _ _ _ _ HB1) as [NP1 IP1].
  assert (LN : forall v, In v Nw -> lev v = S L) by (intros v Hv; apply HF in Hv; tauto).
  assert (LX : forall v, In v Nx -> late v = false /\ lev v = S L).
  { intros v Hv. apply HNx in Hv. destruct Hv as (H1 & H2 & H3 & H4 & H5 & H6 & H7). split; auto.
    pose proof (LA x v Xn H6 ltac:(auto)). destruct (LB v H1 H2 ltac:(lia)) as (u & U1 & U2 & U3 & U4).
    pose proof (cnt_full succ nodes ND (P ++ [x]) v u NP1 IP1 H7 U1 U2 U3) as Hu. apply in_app_iff in Hu. destruct Hu as [Hu|[<-|[]]]; [apply HP in Hu|]; lia. }
  assert (EO : forall v, In v (ext x) -> ~ In v (P ++ [x] ++ (Qr ++ Nw) ++ Nx)).
  { intros v Hv H. destruct (EN x v Xn Hv) as (E1 & E2 & E3). rewrite !in_app_iff in H. cbn [In] in H.
    destruct H as [H|[[H|[]]|[[H|H]|H]]].
    - apply HP in H. lia.
    - subst v. lia.
    - apply HR in H. lia.
    - apply HF in H. rewrite E2 in H. destruct H as (_ & _ & u & U1 & U2). assert (u = x) by (apply (EU u x v); auto). subst u.
      apply NoDup_remove in B3. destruct B3 as [_ B3]. apply B3. apply in_app_iff. auto.
    - apply LX in H. destruct H; congruence. }
  wp1. apply (wp_foreach (fun es (s : list nat * list bool * nat) => let '(q, inq2, nx) := s in q = (Qr ++ Nw) ++ Nx ++ es /\ nx = length Nw + length Nx + length es /\
    length inq2 = N /\ NoDup (P ++ [x] ++ (Qr ++ Nw) ++ Nx ++ es) /\ (forall v, In v nodes -> (inq2.[v] = true <-> In v ((Qr ++ Nw) ++ Nx ++ es))))).
  - rewrite app_nil_r. cbn [length]. rewrite Nat.add_0_r. splits; auto. now rewrite <- app_assoc in C3.
  - intros es o post [[q inq2] nx] Ee (-> & -> & I1 & I2 & I3).
    assert (Ho : In o (ext x)) by (rewrite Ee; apply in_app_iff; right; now left). destruct (EN x o Xn Ho) as (E1 & E2 & E3). pose proof (NB o E1).
    assert (ON : ~ In o es). { pose proof (ED x Xn) as HD. rewrite Ee in HD. apply NoDup_remove in HD. destruct HD as [_ HD]. rewrite in_app_iff in HD. tauto. }
    pose proof (EO o Ho) as OO. wp1. wp1; [lia|]. wp1. rewrite upd_length, app_length, <- !app_assoc. cbn [length]. rewrite <- !app_assoc in I2. splits; auto; try lia.
    + rewrite !app_assoc. rewrite !app_assoc in I2. apply NoDup_app'; auto; [repeat constructor; intros []|].
      intros y Hy [<-|[]]. rewrite !in_app_iff in Hy, OO. rewrite ?in_app_iff in Hy. tauto.
    + intros v Hv. rewrite aget_upd by lia. specialize (I3 v Hv). rewrite !in_app_iff in I3. rewrite !in_app_iff. cbn [In]. destruct (Nat.eqb_spec v o) as [->|Hne]; [tauto|].
      rewrite I3. split; [tauto|]. intros [H1|[H1|[H1|[H1|[H1|[]]]]]]; try tauto. congruence.
  - intros [[q inq2] nx] (-> & -> & I1 & I2 & I3). wp1.
    replace ((Qr ++ Nw) ++ Nx ++ ext x) with (Qr ++ (Nw ++ Nx ++ ext x)) in * by now rewrite <- !app_assoc.
    replace (length Nw + length Nx + length (ext x)) with (length (Nw ++ Nx ++ ext x)) by (rewrite !app_length; lia).
    apply HQ.
    + unfold bst. rewrite <- app_assoc. splits; auto. intros y Hy. rewrite !in_app_iff in Hy.
      assert (G : In y (ext x) -> In y nodes) by (intros H; now apply (EN x y Xn)).
      assert (G2 : In y ((P ++ [x]) ++ (Qr ++ Nw) ++ Nx) -> In y nodes) by apply C4. rewrite !in_app_iff in G2. tauto.
    + intros v. rewrite !in_app_iff. split.
      * intros [H|[H|H]].
        -- apply HF in H. destruct H as (H1 & H2 & H3). splits; auto. destruct (late v).
           ++ destruct H3 as (u & U1 & U2). exists u. split; [apply in_app_iff; auto|auto].
           ++ rewrite cnt_app. pose proof (cnt_split succ nodes ND (P ++ [x]) v NP1 IP1) as CS. rewrite cnt_app in CS. lia.
        -- pose proof (LX v H) as [H1 H2]. apply HNx in H. rewrite H1. tauto.
        -- destruct (EN x v Xn H) as (E1 & E2 & E3). rewrite E2. splits; auto; [lia|]. exists x. split; [apply in_app_iff; right; now left|auto].
      * intros (H1 & H2 & H3). destruct (late v) eqn:El.
        -- destruct H3 as (u & U1 & U2). apply in_app_iff in U1. destruct U1 as [U1|[<-|[]]]; [|auto].
           left. apply HF. rewrite El. splits; auto. eauto.
        -- destruct (Nat.eq_dec (cnt P v) (cnt nodes v)) as [E|E]; [left; apply HF; rewrite El; splits; auto|].
           right. left. apply HNx. splits; auto.
           ++ intros ->. lia.
           ++ intros H. apply HP in H. lia.
           ++ rewrite in_app_iff. intros [H|H]; [apply HR in H; lia|]. apply HF in H. rewrite El in H. tauto.
           ++ assert (IN0 : 0 < into succ v x) by (rewrite cnt_app, cnt_one in H3; lia). now apply into_pos in IN0.
Qed.

(** one level *)
Lemma level_wp L P Qu vis inq levels lev_num (Q : (list nat * list Z * list bool * nat) * list nat * nat -> Prop) :
  bst P Qu vis inq -> (forall v, In v P <-> In v nodes /\ lev v < L) -> (forall v, In v Qu <-> In v nodes /\ lev v = L) -> lev_num = length P ->
  length P + length Qu <= length levels -> (forall k, k < length P -> levels.[k] = P.[k]) ->
  (forall Nw vis' inq' levels', bst (P ++ Qu) Nw vis' inq' -> (forall v, In v Nw <-> In v nodes /\ lev v = S L) ->
     length levels' = length levels -> (forall k, k < length (P ++ Qu) -> levels'.[k] = (P ++ Qu).[k]) -> Q ((Nw, vis', inq', length Nw), levels', length (P ++ Qu))) ->
  wp (for_ 0 (length Qu) (fun _ => fuse_node targets extra deg) ((Qu, vis, inq, 0), levels, lev_num)) Q.
Proof.
  intros HB HP HU -> HLL HLv HQ.
  apply (wp_for (fun i (s : (list nat * list Z * list bool * nat) * list nat * nat) => let '((q, vis', inq', nx), levels', ln) := s in
    exists Nw, q = skipn i Qu ++ Nw /\ nx = length Nw /\ ln = length (P ++ firstn i Qu) /\ bst (P ++ firstn i Qu) (skipn i Qu ++ Nw) vis' inq' /\
      found L (P ++ firstn i Qu) Nw /\ length levels' = length levels /\ (forall k, k < length (P ++ firstn i Qu) -> levels'.[k] = (P ++ firstn i Qu).[k]))); [lia| | |].
  - exists []. cbn [skipn firstn]. rewrite !app_nil_r. splits; auto. destruct (bst_P _ _ _ _ HB) as [NP IP].
    intros v. split; [intros []|]. intros (H1 & H2 & H3). destruct (late v) eqn:El.
    + destruct H3 as (u & U1 & U2). apply HP in U1. destruct U1 as [U1 U3]. destruct (EN u v U1 U2) as (_ & _ & E). lia.
    + destruct (LB v H1 El ltac:(lia)) as (u & U1 & U2 & U3 & U4). pose proof (cnt_full succ nodes ND P v u NP IP H3 U1 U2 U3) as Hu. apply HP in Hu. lia.
  - intros i [[[[[q vis'] inq'] nx] levels'] ln] Hi (Nw & -> & -> & -> & I1 & I2 & I3 & I4).
    rewrite (skipn_S_aget Qu i) in * by lia. rewrite (firstn_S_aget Qu i) by lia. cbn [app] in *. rewrite app_assoc.
    assert (LN : length (P ++ firstn i Qu) = length P + i) by (rewrite app_length, firstn_length; lia).
    apply (node_wp L (P ++ firstn i Qu)); auto.
    + apply HU. apply aget_In. lia.
    + intros v Hv. apply in_app_iff in Hv. destruct Hv as [Hv|Hv]; [apply HP in Hv; lia|]. assert (In v Qu) by (rewrite <- (firstn_skipn i Qu); apply in_app_iff; auto).
      apply HU in H. lia.
    + intros v Hv. assert (In v Qu) by (rewrite <- (firstn_skipn (S i) Qu); apply in_app_iff; auto). now apply HU in H.
    + intros v Hv Hl. apply in_app_iff. left. apply HP. auto.
    + lia.
    + intros Nw' vis2 inq2 J1 J2. exists Nw'. splits; auto.
      * rewrite (app_length (P ++ firstn i Qu)). cbn [length]. lia.
      * now rewrite upd_length.
      * intros k Hk. rewrite (app_length (P ++ firstn i Qu)) in Hk. cbn [length] in Hk. rewrite aget_upd by lia. destruct (Nat.eqb_spec k (length (P ++ firstn i Qu))) as [->|].
        -- now rewrite aget_app_last.
        -- rewrite aget_app1 by lia. apply I4. lia.
  - intros [[[[[q vis'] inq'] nx] levels'] ln] (Nw & -> & -> & -> & I1 & I2 & I3 & I4).
    rewrite skipn_all, firstn_all in *. cbn [app] in *. apply HQ; auto. destruct (bst_P _ _ _ _ I1) as [NP IP].
    intros v. rewrite (I2 v). split; [tauto|]. intros [H1 H2]. splits; auto.
    assert (PIN : forall u, In u nodes -> lev u <= L -> In u (P ++ Qu)).
    { intros u Hu Hl. apply in_app_iff. destruct (Nat.eq_dec (lev u) L); [right; now apply HU|left; apply HP; split; auto; lia]. }
    destruct (late v) eqn:El.
    + destruct (EP v H1 El) as (u & U1 & U2). exists u. split; auto. apply PIN; auto. destruct (EN u v U1 U2) as (_ & _ & E). lia.
    + apply cnt_all; auto. intros u Hu Hne Hs. apply PIN; auto. pose proof (LA u v Hu Hs Hne). lia.
Qed.

Definition levels_of (Ls : list (list nat)) : Prop := forall l v, l < length Ls -> (In v Ls.[l] <-> In v nodes /\ lev v = l).

Lemma levels_wp size lpsize sources inq (Q : nat * (list nat * list nat) -> Prop) :
  size = length nodes -> (forall v, In v nodes -> S (lev v) < lpsize) -> 0 < lpsize ->
  NoDup sources -> (forall v, In v sources <-> In v nodes /\ lev v = 0) -> length inq = N -> (forall v, In v nodes -> (inq.[v] = true <-> In v sources)) ->
  (forall Ls lp ls, levels_of Ls -> (forall v, In v nodes -> lev v < length Ls) -> NoDup (concat Ls) -> length (concat Ls) = length nodes ->
     (forall l, l < length Ls -> Ls.[l] <> []) -> rep Ls lp ls -> length lp = S (length Ls) -> length ls = size -> Q (length Ls, (lp, ls))) ->
  wp (fuse_levels targets extra deg N size lpsize sources inq) Q.
Proof.
  intros HS HLP H0 NS SS LI QI HQ. unfold fuse_levels. wp1. wp1; [now rewrite repeat_length|]. wp1.
  assert (GO : forall l, (forall v, In v nodes -> lev v <> l) -> forall v, In v nodes -> lev v < l).
  { intros l Hl v Hv. apply not_ge. intros G. remember (lev v - l) as k eqn:Ek. revert v Hv G Ek. induction k as [|k IH]; intros v Hv G Ek; [apply (Hl v); auto; lia|].
    destruct (late v) eqn:El.
    - destruct (EP v Hv El) as (u & U1 & U2). destruct (EN u v U1 U2) as (_ & _ & E). apply (IH u); auto; lia.
    - destruct (LB v Hv El ltac:(lia)) as (u & U1 & _ & _ & U4). apply (IH u); auto; lia. }
  apply (wp_while (fun st : list nat * list Z * list bool * list nat * nat * nat * list nat * nat => let '(q, vis, inq, levels, ln, cur, lp, cn) := st in
    exists Ls, levels_of Ls /\ (forall l, l < length Ls -> Ls.[l] <> []) /\ bst (concat Ls) q vis inq /\ (forall v, In v (concat Ls) <-> In v nodes /\ lev v < length Ls) /\
      (forall v, In v q <-> In v nodes /\ lev v = length Ls) /\ length levels = size /\ ln = length (concat Ls) /\ cur = length Ls /\ cn = length q /\
      (forall k, k < length (concat Ls) -> levels.[k] = (concat Ls).[k]) /\ length lp = lpsize /\ cur < lpsize /\ (forall i, i <= length Ls -> lp.[i] = length (concat (firstn i Ls))))
    (fun '(q, vis, inq, levels, ln, cur, lp, cn) => size - ln)).
  - exists []. cbn [length concat]. splits; auto; try lia.
    + intros l v Hl. cbn [length] in Hl. lia.
    + unfold bst. rewrite repeat_length. cbn [app]. splits; auto.
      * intros v Hv. now apply SS in Hv.
      * intros v Hv _. rewrite aget_repeat by auto. reflexivity.
    + intros v. split; [intros []|lia].
    + apply repeat_length.
    + now rewrite upd_length, repeat_length.
    + intros i Hi. replace i with 0 by lia. rewrite aget_upd_eq by (now rewrite repeat_length). reflexivity.
  - lia.
  - intros [[[[[[[q vis] inq'] levels] ln] cur] lp] cn] (Ls & I1 & I2 & I3 & I4 & I5 & I6 & -> & -> & -> & I7 & I8 & I9 & I10).
    destruct (bst_P _ _ _ _ I3) as [NP IP]. wp1. destruct (Nat.eqb_spec (length q) 0) as [E|E]; cbn [negb].
    + wp1. destruct q; [|discriminate].
      assert (AL : forall v, In v nodes -> lev v < length Ls). { apply GO. intros v Hv Hl. apply (I5 v). auto. }
      apply HQ; auto.
      * apply Permutation_length, NoDup_Permutation; auto. intros v. rewrite I4. split; [tauto|]. intros H. split; auto.
      * split; [|intros k Hk; apply I7; auto]. intros i Hi. rewrite aget_firstn by lia. apply I10. lia.
      * rewrite firstn_length. lia.
    + assert (HQ0 : In q.[0] nodes /\ lev q.[0] = length Ls) by (apply I5, aget_In; lia). destruct HQ0 as [Q1 Q2]. pose proof (HLP _ Q1) as Q3.
      wp1. wp1; [lia|]. wp1. wp1; [lia|]. wp1.
      assert (LE : length (concat Ls) + length q <= size).
      { rewrite HS, <- app_length. apply NoDup_incl_length; [apply I3|apply I3]. }
      apply (level_wp (length Ls) (concat Ls) q vis inq'); auto; [lia|]. intros Nw vis2 inq2 levels2 J1 J2 J3 J4. wp1.
      assert (LSN : length (Ls ++ [q]) = S (length Ls)) by (rewrite app_length; cbn [length]; lia).
      split.
      2:{ rewrite app_length. lia. }
      exists (Ls ++ [q]). rewrite concat_snoc, LSN, upd_length. splits; auto; try lia.
      * intros l v Hl. rewrite LSN in Hl. destruct (Nat.eq_dec l (length Ls)) as [->|]; [rewrite aget_app_last; apply I5|rewrite aget_app1 by lia; apply I1; lia].
      * intros l Hl. destruct (Nat.eq_dec l (length Ls)) as [->|]; [rewrite aget_app_last; intros ->; now apply E|rewrite aget_app1 by lia; apply I2; lia].
      * intros v. rewrite in_app_iff, I4, I5. split; [intros [H|H]; split; try tauto; lia|]. intros [H1 H2]. destruct (Nat.eq_dec (lev v) (length Ls)); [auto|]. left. split; auto. lia.
      * intros i Hi. rewrite aget_upd by lia. destruct (Nat.eqb_spec i (S (length Ls))) as [->|].
        -- rewrite I10 by lia. rewrite firstn_all. rewrite <- LSN at 1. rewrite firstn_all, concat_snoc, app_length. reflexivity.
        -- rewrite I10 by lia. rewrite firstn_app. replace (i - length Ls) with 0 by lia. cbn [firstn]. now rewrite app_nil_r.
Qed.
End Bfs.

(** reading off the levels *)
Lemma rep_in_level Ls lp ls l x : rep Ls lp ls -> l < length Ls -> (in_level lp ls l x <-> In x Ls.[l]).
Proof.
  intros [R1 R2] Hl.
  assert (E : concat (firstn (S l) Ls) = concat (firstn l Ls) ++ Ls.[l]).
  { rewrite <- concat_snoc. f_equal. clear -Hl. revert l Hl. induction Ls as [|a L IH]; intros l Hl; [simpl in Hl; lia|]. destruct l; [auto|].
    simpl in Hl. rewrite aget_cons_S. cbn [firstn app]. f_equal. apply IH. lia. }
  assert (E2 : concat Ls = concat (firstn (S l) Ls) ++ concat (skipn (S l) Ls)) by now rewrite <- concat_app, firstn_skipn.
  assert (H1 : lp.[l] = length (concat (firstn l Ls))) by (apply R1; lia).
  assert (H2 : lp.[S l] = length (concat (firstn l Ls)) + length Ls.[l]) by (rewrite R1 by lia; now rewrite E, app_length).
  assert (G : forall j, j < length Ls.[l] -> ls.[lp.[l] + j] = Ls.[l].[j]).
  { intros j Hj. rewrite R2 by (rewrite E2, E, !app_length; lia). rewrite E2, E. rewrite aget_app1 by (rewrite app_length; lia).
    rewrite aget_app2 by lia. f_equal. lia. }
  split.
  - intros (k & Hk & <-). replace k with (lp.[l] + (k - lp.[l])) by lia. rewrite G by lia. apply aget_In. lia.
  - intros Hx. apply In_aget in Hx. destruct Hx as (j & Hj & <-). exists (lp.[l] + j). split; [lia|auto].
Qed.

(** longest paths of a finite graph with a rank *)
Section Lev.
Variables (nodes : list nat) (eb : nat -> nat -> bool) (rank : nat -> nat).
Hypothesis RK : forall u v, In u nodes -> In v nodes -> eb u v = true -> rank u < rank v.

Fixpoint lev_fuel (f v : nat) : nat :=
  match f with 0 => 0 | S f => list_max (map (fun u => if eb u v then S (lev_fuel f u) else 0) nodes) end.
Definition lev_of (v : nat) : nat := lev_fuel (S (rank v)) v.

Lemma lev_fuel_enough f f' v : In v nodes -> rank v < f -> rank v < f' -> lev_fuel f v = lev_fuel f' v.
Proof.
  revert f' v. induction f as [|f IH]; intros [|f'] v Hv H H'; try lia. cbn [lev_fuel]. f_equal. apply map_ext_in.
  intros u Hu. destruct (eb u v) eqn:E; auto. pose proof (RK u v Hu Hv E). f_equal. apply IH; auto; lia.
Qed.

Lemma lev_of_lt u v : In u nodes -> In v nodes -> eb u v = true -> lev_of u < lev_of v.
Proof.
  intros Hu Hv E. unfold lev_of at 2. cbn [lev_fuel]. pose proof (RK u v Hu Hv E) as R.
  assert (G : S (lev_of u) <= list_max (map (fun u => if eb u v then S (lev_fuel (rank v) u) else 0) nodes)); [|lia].
  eapply (proj1 (Forall_forall _ _) (proj1 (list_max_le _ _) (le_n _))). apply in_map_iff. exists u. split; auto. rewrite E. f_equal.
  apply lev_fuel_enough; auto.
Qed.

Lemma list_max_In l : 0 < list_max l -> In (list_max l) l.
Proof.
  induction l as [|a l IH]; cbn [list_max fold_right]; [lia|]. intros H. fold (list_max l) in *. destruct (Nat.max_spec a (list_max l)) as [[A B]|[A B]].
  - right. rewrite B. apply IH. lia.
  - left. lia.
Qed.

Lemma lev_of_pred v : In v nodes -> 0 < lev_of v -> exists u, In u nodes /\ eb u v = true /\ S (lev_of u) = lev_of v.
Proof.
  intros Hv H. unfold lev_of in H. cbn [lev_fuel] in H. pose proof (list_max_In _ H) as HI. apply in_map_iff in HI. destruct HI as (u & E & Hu).
  destruct (eb u v) eqn:Eb; [|rewrite <- E in H; lia]. exists u. splits; auto. unfold lev_of at 2. cbn [lev_fuel]. rewrite <- E. f_equal. 
  pose proof (RK u v Hu Hv Eb). apply lev_fuel_enough; auto.
Qed.
End Lev.
