(** The components of a slab of blocks, where no component meets two earlier ones. *)
From Verif Require Import Base Lib Lib2 Spec SpecBCSC L_Util M_LevelSet L_LevelSet L_LevelSet2 M_LBC L_LBC L_LBC2 L_LBC3 M_LBCTree M_BCSC L_BCSC L_BCSC2 L_BCSC3.
From Coq Require Import ZifyBool ZifyNat.

(** two nodes that can be reached from the same node are on one path *)
Lemma comparable (E : nat -> nat -> Prop) (lvl : nat -> nat) : (forall u v, E u v -> lvl u < lvl v) -> successors_on_path E ->
  forall u x k1, chain E u x k1 -> forall y k2, chain E u y k2 -> exists k, chain E x y k \/ chain E y x k.
Proof.
  intros HL SP. assert (Up : forall u v k, chain E u v k -> lvl u <= lvl v).
  { intros u v k C. induction C as [|u v w k C IH H]; [lia|]. apply HL in H. lia. }
  assert (G : forall N u x k1, lvl x - lvl u < N -> chain E u x k1 -> forall y k2, chain E u y k2 -> exists k, chain E x y k \/ chain E y x k).
  { induction N as [|N IH]; intros u x k1 HN C1 y k2 C2; [lia|].
    destruct k1 as [|k1]; [inversion C1; subst; eauto|]. destruct k2 as [|k2]; [inversion C2; subst; eauto|].
    destruct (chain_uncons _ _ _ _ C1) as (v & Ev & Cv). destruct (chain_uncons _ _ _ _ C2) as (w & Ew & Cw).
    destruct (SP u v w Ev Ew) as (k & [C|C]).
    - apply (IH v x k1) with (k2 := k + k2); auto; [|now apply chain_app with w]. apply HL in Ev. apply Up in Cv. lia.
    - apply (IH w x (k + k1)) with (k2 := k2); auto; [|now apply chain_app with v]. apply HL in Ew. apply Up in C, Cv. lia. }
  intros u x k1 C1. apply (G (S (lvl x - lvl u)) u x k1); auto.
Qed.

(** make_unique: where all parts are the same, one node is kept *)
Lemma make_unique_one (n2p : list (option nat)) l ws c : l <> [] -> (forall t, ws.[t] = false) -> c < length ws ->
  (forall x, In x l -> x < length n2p /\ n2p.[x] = Some c) ->
  wp (make_unique n2p l ws) (fun '(_, (l', _)) => length l' = 1).
Proof.
  intros Hne Hws Hc Hl. unfold make_unique. wp1.
  apply (wp_foreach (fun pre '(mn, l', ws1) => length ws1 = length ws /\ (forall x, In x l' -> In x l) /\ match pre with [] => l' = [] /\ ws1.[c] = false | _ => length l' = 1 /\ ws1.[c] = true end)).
  - split; [auto|]. split; [intros x []|]. split; auto.
  - intros pre x post [[mn l'] ws1] E (I1 & I2 & I3).
    destruct (Hl x) as (Hx & Ht); [rewrite E; apply in_app_iff; right; now left|].
    wp1. wp1; [lia|]. rewrite Ht. wp1. wp1; [lia|]. destruct pre as [|y pre].
    + destruct I3 as [-> I3]. rewrite I3. wp1. wp1; [lia|]. wp1. cbn [app]. rewrite upd_length. split; [auto|].
      split; [intros z [<-|[]]; rewrite E; apply in_app_iff; right; now left|]. split; [auto|]. apply aget_upd_eq. lia.
    + destruct I3 as [I3 I4]. rewrite I4. wp1. cbn [app]. auto.
  - intros [[mn l'] ws1] (I1 & I2 & I3). destruct l as [|y l]; [now elim Hne|]. destruct I3 as [I3 I4]. wp1.
    apply (wp_foreach (fun pre ws2 => length ws2 = length ws)); [auto| |].
    + intros pre x post ws2 E J. destruct (Hl x) as (Hx & Ht); [apply I2; rewrite E; apply in_app_iff; right; now left|].
      wp1. wp1; [lia|]. rewrite Ht. wp1; [lia|]. now rewrite upd_length.
    + intros ws2 J. wp1. exact I3.
Qed.

Lemma make_unique_wp2 (n2p : list (option nat)) l ws (Q : option nat * (list nat * list bool) -> Prop) :
  (forall t, ws.[t] = false) ->
  (forall x, In x l -> x < length n2p /\ exists t, n2p.[x] = Some t /\ t < length ws) ->
  (forall mn l' ws', length ws' = length ws -> (forall t, ws'.[t] = false) ->
     (forall x, In x l' -> In x l) ->
     (forall x, In x l -> exists y, In y l' /\ n2p.[y] = n2p.[x]) ->
     (l = [] -> mn = None /\ l' = []) ->
     (l <> [] -> exists m x, mn = Some m /\ In x l /\ n2p.[x] = Some m /\
        forall y t, In y l -> n2p.[y] = Some t -> m <= t) ->
     (forall c, l <> [] -> (forall x, In x l -> n2p.[x] = Some c) -> length l' = 1) -> Q (mn, (l', ws'))) ->
  wp (make_unique n2p l ws) Q.
Proof.
  intros Hws Hl HQ. pose proof (make_unique_wp n2p l ws (fun r => make_unique n2p l ws = Ok r -> Q r) Hws Hl) as H.
  assert (G : wp (make_unique n2p l ws) (fun r => make_unique n2p l ws = Ok r -> Q r)).
  { apply H. intros mn l' ws' U1 U2 U3 U4 U5 U6 E. apply HQ; auto. intros c Hne Hc.
    destruct l as [|x0 l0]; [now elim Hne|]. destruct (Hl x0 (or_introl eq_refl)) as (_ & t & Ht & Hlt). rewrite (Hc x0 (or_introl eq_refl)) in Ht. inversion Ht; subst t.
    pose proof (make_unique_one n2p (x0 :: l0) ws c Hne Hws Hlt) as M. apply (proj1 (wp_ok _ _ _)) in M; [|intros x Hx; split; [apply (Hl x Hx)|apply (Hc x Hx)]].
    destruct M as (r & Er & Hr). rewrite E in Er. inversion Er; subst r. exact Hr. }
  apply (proj1 (wp_ok _ _ _)) in G. destruct G as (r & Er & Hr). apply wp_ok. exists r. auto.
Qed.

Section Comp.
Variables (nb : nat) (b2c c2b Lip Li : list nat).
Hypothesis BK : blk_ok nb b2c c2b Lip Li.
Local Notation Gp := (gp nb b2c c2b Lip Li).
Local Notation Gi := (gi nb b2c c2b Lip Li).
Hypothesis SP : successors_on_path (edge nb Gp Gi).
Variables (levelNo : nat) (lp ls n2l : list nat).
Hypothesis LO : lev_ok nb Gp Gi levelNo lp ls n2l.
Variables (a b : nat).
Hypothesis Ha : a < levelNo.
Hypothesis Hab : a < b.
Context {T : Type} `{DT : Dflt T}.
Variables (add : T -> T -> T) (nodeCost : list T).
Hypothesis Hcost : nb <= length nodeCost.
Local Notation slb := (slab nb n2l a b).
Let W : wf_csc nb Gp Gi := g_wf nb b2c c2b Lip Li BK.

(** a part number goes along the edges inside the slab *)
Lemma along (n2p : list (option nat)) (m : list Z) :
  (forall u v, slb u -> slb v -> edge nb Gp Gi u v -> m.[u] <> 0%Z -> m.[v] <> 0%Z /\ n2p.[v] = n2p.[u]) ->
  forall x y d, chain (edge nb Gp Gi) x y d -> slb x -> slb y -> m.[x] <> 0%Z -> m.[y] <> 0%Z /\ n2p.[y] = n2p.[x].
Proof.
  intros H x y d C. assert (Up : forall u v k, chain (edge nb Gp Gi) u v k -> n2l.[u] <= n2l.[v]).
  { intros u v k D. induction D as [|u v w k D IH E]; [lia|]. apply (lo_edge _ _ _ _ _ _ _ LO) in E. lia. }
  induction C as [|u v w k C IH E]; intros Hx Hy Hm; [auto|].
  assert (Hv : slb v).
  { destruct (wf_edge_lt nb Gp Gi W v w E) as [Hv _]. apply (lo_edge _ _ _ _ _ _ _ LO) in E. apply Up in C. destruct Hx as (? & ? & ?), Hy as (? & ? & ?).
    split; [auto|lia]. }
  destruct (IH Hx Hv Hm) as [A B]. destruct (H v w Hv Hy E A) as [D F]. split; [auto|congruence].
Qed.

Lemma components_b_wp n2p0 oc0 m00 (Q : list (option nat) * list T * list Z * nat -> Prop) :
  length n2p0 = nb -> length oc0 = nb -> length m00 = nb ->
  (forall v, slb v -> m00.[v] = 0%Z) ->
  (forall v, v < nb -> b <= n2l.[v] -> m00.[v] = 1%Z) ->
  (forall n2p oc m cc, length n2p = nb -> length oc = nb -> length m = nb ->
     cc <= lp.[S a] - lp.[a] ->
     (forall v, v < nb -> ~ slb v -> m.[v] = m00.[v]) ->
     (forall v, slb v -> exists c, n2p.[v] = Some c /\ c < cc) ->
     (forall u v, slb u -> slb v -> edge nb Gp Gi u v -> n2p.[v] = n2p.[u]) -> Q (n2p, oc, m, cc)) ->
  wp (slab_components_b b2c c2b Lip Li add nb lp ls n2l nodeCost a n2p0 oc0 m00) Q.
Proof.
  intros H1 H2 H3 H4 H5 HQ. unfold slab_components_b.
  pose proof (lo_lp _ _ _ _ _ _ _ LO) as L1. pose proof (lo_ls _ _ _ _ _ _ _ LO) as L2. pose proof (lo_n2l _ _ _ _ _ _ _ LO) as L3.
  pose proof (lo_mono _ _ _ _ _ _ _ LO a (S a) ltac:(lia) ltac:(lia)) as Hle. pose proof (lo_le _ _ _ _ _ _ _ LO (S a) ltac:(lia)) as Hn.
  wp1. wp1; [lia|]. wp1. wp1; [lia|]. wp1.
  apply (wp_for (comp_inv nb Gp Gi lp ls n2l a b m00)).
  - lia.
  - constructor; cbn [fst snd]; auto.
    + split; [apply repeat_length|]. intros t. destruct (le_lt_dec nb t) as [L|L].
      * apply aget_overflow. rewrite repeat_length. lia.
      * now apply aget_repeat.
    + lia.
    + intros v Hv Hm. elim Hm. auto.
    + intros u v Hu _ _ Hm. elim Hm. auto.
    + intros i Hi. lia.
  - intros k [[[[[n2p oc] m] al] un] cc] Hk I. pose proof I as J. destruct I as [I1 I2 I3 I4 I5 I6 I7 I8 I9 I10 I11].
    simpl fst in *. simpl snd in *. subst al.
    wp1. wp1; [lia|]. pose proof (lo_lt _ _ _ _ _ _ _ LO k ltac:(lia)) as Hleaf.
    pose proof (lo_at _ _ _ _ _ _ _ LO a k ltac:(lia) ltac:(lia)) as Hlv.
    set (leaf := ls.[k]) in *.
    assert (Hsl : slb leaf) by (split; [auto|lia]).
    wp1. wp1; [lia|]. destruct (Z.eqb_spec m.[leaf] 0) as [E0|E0].
    2:{ wp1. destruct J as [J1 J2 J3 J4 J5 J6 J7 J8 J9 J10 J11]. constructor; auto; cbn [fst snd] in *.
      - lia.
      - intros i Hi. destruct (Nat.eq_dec i k) as [->|]; [auto|]. apply J11. lia. }
    wp1. eapply wp_ref; [apply (dfs_ref nb b2c c2b Lip Li BK leaf m []); auto|]. apply (dfs_wp nb Gp Gi W leaf m []); auto. intros out m1 clash [D1 D2 D3 D4 D5 D6 D7 D8 (new & Dc & D9 & D10)].
    simpl in Dc. subst clash. cbv iota.
    (* everything found lies in the slab *)
    assert (Hout : forall u, In u out -> slb u).
    { intros u Hu. destruct (D3 u Hu) as [Hun Hu0].
      assert (Hge : a <= n2l.[u]).
      { apply (D8 (fun x => a <= n2l.[x])); [lia| |auto]. intros x y Hx Hxy. apply (lo_edge _ _ _ _ _ _ _ LO) in Hxy. lia. }
      split; [auto|]. split; [auto|]. destruct (le_lt_dec b n2l.[u]) as [L|L]; [|auto]. exfalso.
      rewrite I8 in Hu0 by (auto; unfold slab; lia). rewrite H5 in Hu0 by auto. lia. }
    assert (Hnew : forall v, In v new -> slb v /\ m.[v] = (-1)%Z /\ exists u, In u out /\ edge nb Gp Gi u v).
    { intros v Hv. destruct (D9 v Hv) as (A & u & B & C). destruct (wf_edge_lt nb Gp Gi W u v C) as [_ Hvn].
      pose proof (lo_edge _ _ _ _ _ _ _ LO u v C). destruct (Hout u B) as (_ & Hu1 & _).
      splits; eauto. split; [auto|]. split; [lia|]. destruct (le_lt_dec b n2l.[v]) as [L|L]; auto. exfalso.
      rewrite I8 in A by (auto; unfold slab; lia). rewrite H5 in A by auto. lia. }
    (* a slb successor of a found node is found or met *)
    assert (Hsucc : forall u v, In u out -> edge nb Gp Gi u v -> slb v -> In v out \/ In v new).
    { intros u v Hu He Hv. destruct (D7 u v Hu He) as [A|A]; auto. right. apply (D10 u); auto.
      pose proof (lo_edge _ _ _ _ _ _ _ LO u v He). destruct (Hout u Hu) as (_ & Hu1 & _).
      destruct (I7 v Hv) as [B|B]; [contradiction|]. rewrite B. now replace (n2l.[v] =? a) with false by lia. }
    wp1. apply make_unique_wp2; [apply I5| |].
    { intros v Hv. destruct (Hnew v Hv) as (A & B & _). destruct (I9 v A ltac:(lia)) as (c & C & D). destruct A.
      split; [lia|]. exists c. split; auto. lia. }
    intros mn l' un' U1 U2 U3 U4 U5 U6 U7. cbv iota.
    (* the common end: all found nodes get part c *)
    assert (Fin : forall n2p1 c cc', length n2p1 = nb -> c < nb -> c < cc' -> cc' <= S k - lp.[a] ->
       (forall v, slb v -> m.[v] <> 0%Z -> exists c', n2p1.[v] = Some c' /\ c' < cc') ->
       (forall u v, slb u -> slb v -> edge nb Gp Gi u v -> m.[u] <> 0%Z -> n2p1.[v] = n2p1.[u]) ->
       (forall v, In v new -> n2p1.[v] = Some c) ->
       wp (number_nodes add n2l nodeCost a c out n2p1 oc m1) (fun '(n2p', oc', m') =>
         comp_inv nb Gp Gi lp ls n2l a b m00 (S k) (n2p', oc', m', [], un', cc'))).
    { intros n2p1 c cc' F1 F2 F3 F4 F5 F6 F7.
      apply (number_nodes_wp add nb); auto; try lia. { intros v Hv. now apply D3. }
      intros n2p' oc' m' N1 N2 N3 N4 N5 N6 N7.
      assert (Mk : forall v, v < nb -> m'.[v] <> 0%Z <-> In v out \/ m.[v] <> 0%Z).
      { intros v Hv. destruct (in_dec Nat.eq_dec v out) as [Hi|Hi].
        - split; auto. intros _. destruct (Nat.eq_dec n2l.[v] a) as [Ea|Ea].
          + rewrite N7, D5 by auto. lia.
          + rewrite N6 by auto. lia.
        - rewrite N7, D6 by auto. tauto. }
      assert (Hvn : forall v, slb v -> v < nb) by (intros v [? _]; auto).
      constructor; cbn [fst snd]; auto.
      - rewrite N2. auto.
      - split; [lia|auto].
      - intros v Hv. destruct (in_dec Nat.eq_dec v out) as [Hi|Hi].
        + right. destruct (Nat.eqb_spec n2l.[v] a) as [Ea|Ea].
          * rewrite N7 by auto. now apply D5.
          * apply N6; auto.
        + rewrite N7, D6 by auto. auto.
      - intros v Hv Hns. assert (~ In v out) by (intros C; apply Hns; auto). rewrite N7, D6 by auto. auto.
      - intros v Hv Hm. apply Mk in Hm; auto. destruct (in_dec Nat.eq_dec v out) as [Hi|Hi].
        + exists c. split; auto.
        + destruct Hm as [Hm|Hm]; [contradiction|]. rewrite N5 by auto. auto.
      - intros u v Hu Hv He Hm. apply Mk in Hm; auto. destruct (in_dec Nat.eq_dec u out) as [Hi|Hi].
        + destruct (Hsucc u v Hi He Hv) as [A|A].
          * split; [apply Mk; auto|]. rewrite !N4; auto.
          * destruct (Hnew v A) as (_ & Hm1 & _). split; [apply Mk; auto; right; lia|].
            assert (~ In v out) by (intros C; destruct (D3 v C); lia).
            rewrite (N4 u), (N5 v) by auto. auto.
        + destruct Hm as [Hm|Hm]; [contradiction|]. destruct (I10 u v Hu Hv He Hm) as [A _].
          split; [apply Mk; auto|]. assert (~ In v out) by (intros C; destruct (D3 v C); contradiction).
          rewrite !N5 by auto. apply F6; auto.
      - intros i Hi. pose proof (lo_lt _ _ _ _ _ _ _ LO i ltac:(lia)) as Hlt. apply Mk; auto. destruct (Nat.eq_dec i k) as [->|]; auto.
        right. apply I11. lia. }
    destruct mn as [mn|].
    + assert (Hne : new <> []) by (intros ->; destruct (U5 eq_refl); discriminate).
      destruct (U6 Hne) as (m' & x & Em & Hx & Ex & _). inversion Em; subst m'. clear Em.
      destruct (Hnew x Hx) as (Sx & Mx & _). destruct (I9 x Sx ltac:(lia)) as (c & Ec & Hc).
      assert (c = mn) by congruence. subst c.
      assert (Same : forall y, In y new -> n2p.[y] = Some mn).
      { intros y Hy. rewrite <- Ex. destruct (Hnew y Hy) as (Sy & My & u & Hu & Huy). destruct (Hnew x Hx) as (_ & _ & u' & Hu' & Hux).
        assert (RR : forall w, In w out -> exists d, chain (edge nb Gp Gi) leaf w d).
        { apply (D8 (fun w => exists d, chain (edge nb Gp Gi) leaf w d)); [exists 0; constructor|].
          intros p q (d & Hd) He. exists (S d). econstructor; eauto. }
        destruct (RR u Hu) as (d1 & C1). destruct (RR u' Hu') as (d2 & C2).
        destruct (comparable (edge nb Gp Gi) (fun w => n2l.[w]) (lo_edge _ _ _ _ _ _ _ LO) SP leaf x (S d2) (chain_snoc _ _ _ _ _ C2 Hux)
          y (S d1) (chain_snoc _ _ _ _ _ C1 Huy)) as (d & [C|C]).
        - destruct (along n2p m I10 x y d C Sx Sy ltac:(lia)) as [_ A]. exact A.
        - destruct (along n2p m I10 y x d C Sy Sx ltac:(lia)) as [_ A]. now rewrite A. }
      assert (L1' : length l' = 1) by (apply (U7 mn); auto).
      destruct l' as [|y0 [|y1 r]]; cbn [length] in L1'; try lia. clear L1'.
      unfold alias_parts_b at 1. cbn [tl foreach bind].
      wp1. eapply wp_mono; [apply (Fin n2p mn cc)|]; auto; try lia.
      * intros u v Hu Hv He Hm. now apply I10.
      * intros [[n2p' oc'] m'] Hc'. wp1. cbn [length]. replace (cc - (1 - 1)) with cc by lia. exact Hc'.
    + assert (Hnil : new = []).
      { destruct new as [|y t]; auto. destruct (U6 ltac:(discriminate)) as (m' & x & Em & _). discriminate. }
      destruct (U5 Hnil) as [_ ->].
      wp1. eapply wp_mono; [apply (Fin n2p cc (S cc))|]; auto; try lia.
      * intros v Hv Hm. destruct (I9 v Hv Hm) as (c & C & D). exists c. split; auto.
      * intros u v Hu Hv He Hm. now apply I10.
      * rewrite Hnil. intros v [].
      * intros [[n2p' oc'] m'] Hc'. wp1. exact Hc'.
  - intros [[[[[n2p oc] m] al] un] cc] I. destruct I as [I1 I2 I3 I4 I5 I6 I7 I8 I9 I10 I11]. cbn [fst snd] in *. wp1.
    assert (All : forall d v, slb v -> n2l.[v] <= a + d -> m.[v] <> 0%Z).
    { induction d as [|d IH]; intros v Hv Hd; pose proof Hv as (Hvn & Hv1 & Hv2).
      - destruct (lo_in _ _ _ _ _ _ _ LO v Hvn) as (Hl & i & Hi & <-). apply I11.
        replace a with n2l.[ls.[i]] by lia. auto.
      - destruct (le_lt_dec n2l.[v] (a + d)) as [L|L]; [apply IH; auto|].
        destruct (lo_pred _ _ _ _ _ _ _ LO v Hvn ltac:(lia)) as (u & He & Eu).
        destruct (wf_edge_lt nb Gp Gi W u v He) as [Hun _].
        assert (Hu : slb u) by (split; [auto|lia]).
        apply (I10 u v); auto. apply IH; auto. lia. }
    apply HQ; auto.
    + intros v Hv. apply I9; auto. apply (All (n2l.[v])); auto. lia.
    + intros u v Hu Hv He. apply I10; auto. apply (All (n2l.[u])); auto. lia.
Qed.
End Comp.
