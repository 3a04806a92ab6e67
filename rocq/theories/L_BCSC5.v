(** The blocked driver where successors lie on one path. *)
From Verif Require Import Base Lib Lib2 Spec SpecBCSC L_Util M_LevelSet L_LevelSet L_LevelSet2 M_LBC L_LBC L_LBC2 L_LBC3 L_LBC4 L_LBC5 L_LBC6 L_LbcCsc M_LBCTree L_LBCTree5
  M_BCSC L_BCSC L_BCSC2 L_BCSC3 L_BCSC4.
From Coq Require Import ZifyBool ZifyNat.

(** * height_partitioning: how far from the end the last cut is *)
Lemma height_more_wp levelNo lp innerParts md dr p2l : levelNo < length lp -> length p2l = levelNo + 1 -> 1 <= levelNo -> (0 <= md)%Z ->
  wp (height_partitioning levelNo lp innerParts md dr p2l) (fun '(k, (sizes, p2l')) =>
    (forall j, j < length sizes -> sizes.[j] <= Z.to_nat (Z.max 1 innerParts)) /\
    (2 <= k -> (Z.of_nat p2l'.[k - 1] + md <= Z.of_nat levelNo)%Z)).
Proof.
  intros HL HP H1 Hmd. unfold height_partitioning.
  set (d := if (dr <=? 1)%Z then 10%Z else dr). assert (Hd : (2 <= d)%Z) by (unfold d; destruct (Z.leb_spec dr 1); lia).
  destruct (Nat.leb_spec levelNo 2) as [L2|L2].
  - wp1. wp1; [lia|]. wp1. wp1; [rewrite upd_length; lia|]. wp1. split; [|lia]. intros j Hj. cbn [length] in Hj. replace j with 0 by lia.
    rewrite aget_cons_0. lia.
  - wp1. apply (wp_for (fun i accu => length accu = levelNo)); [lia|apply repeat_length| |].
    { intros i accu Hi Ha. wp1. wp1; [lia|]. wp1. wp1; [lia|]. wp1; [lia|]. now rewrite upd_length. }
    intros accu Ha. wp1. wp1; [lia|]. wp1.
    apply (wp_while (fun '(ip, c, sizes, q) => (forall j, j < length sizes -> sizes.[j] <= Z.to_nat (Z.max 1 innerParts)) /\ (ip <= innerParts)%Z /\
       length q = levelNo + 1 /\ (forall j, j < c -> q.[j] < q.[S j]) /\ (forall j, j <= c -> q.[j] < levelNo) /\ (1 <= c -> (Z.of_nat q.[c] + md <= Z.of_nat levelNo)%Z))
      (fun '(ip, c, sizes, q) => Z.to_nat ip)).
    + splits; try lia; cbn [length]; try lia.
      * rewrite upd_length. lia.
      * intros j Hj. replace j with 0 by lia. rewrite aget_upd_eq by lia. lia.
    + lia.
    + intros [[[ip c] sizes] q] (I2 & I4 & I5 & I7 & I8 & I9). wp1.
      assert (Hc : c < levelNo).
      { assert (G : forall j, j <= c -> j <= q.[j]). { induction j; [lia|]. intros. specialize (I7 j ltac:(lia)). specialize (IHj ltac:(lia)). lia. }
        specialize (G c ltac:(lia)). specialize (I8 c ltac:(lia)). lia. }
      destruct (Z.ltb_spec 1 ip) as [Hip|Hip].
      * wp1. apply level_cut_wp; [lia|auto|]. intros cut Hcut. wp1. wp1; [lia|].
        assert (HD : (0 <= ip / d < ip)%Z).
        { split; [apply Z.div_pos; lia|apply Z.div_lt; lia]. }
        assert (SZ : forall j, j < length sizes + 1 -> (sizes ++ [Z.to_nat ip]).[j] <= Z.to_nat (Z.max 1 innerParts)).
        { intros j Hj. destruct (Nat.eq_dec j (length sizes)) as [->|].
          - rewrite aget_app_last. lia.
          - rewrite aget_app1 by lia. apply I2. lia. }
        destruct (_ && _)%Z eqn:Ec.
        -- wp1. wp1. wp1; [lia|]. wp1. wp1. rewrite app_length, upd_length. cbn [length]. splits; auto; try lia.
           ++ intros j Hj. destruct (Nat.eq_dec j c) as [->|].
              ** rewrite aget_upd_eq by lia. rewrite aget_upd_ne by lia. lia.
              ** rewrite !aget_upd_ne by lia. apply I7. lia.
           ++ intros j Hj. destruct (Nat.eq_dec j (S c)) as [->|].
              ** rewrite aget_upd_eq by lia. lia.
              ** rewrite !aget_upd_ne by lia. apply I8. lia.
           ++ intros _. rewrite aget_upd_eq by lia. lia.
        -- wp1. wp1. wp1. rewrite app_length. cbn [length]. splits; auto; try lia.
      * wp1. wp1; [lia|]. wp1. split.
        -- rewrite app_length. cbn [length]. intros j Hj. destruct (Nat.eq_dec j (length sizes)) as [->|].
           ++ rewrite aget_app_last. lia.
           ++ rewrite aget_app1 by lia. apply I2. lia.
        -- intros Hk. cbn [Nat.sub]. rewrite Nat.sub_0_r. rewrite aget_upd_ne by lia. apply I9. lia.
Qed.

Lemma height_both_wp levelNo lp innerParts md dr p2l (Q : nat * (list nat * list nat) -> Prop) :
  levelNo < length lp -> length p2l = levelNo + 1 -> 1 <= levelNo -> (0 <= md)%Z ->
  (forall k sizes p2l', 1 <= k -> k <= length sizes -> (forall j, j < length sizes -> 1 <= sizes.[j] <= Z.to_nat (Z.max 1 innerParts)) ->
     length p2l' = levelNo + 1 -> k <= levelNo -> p2l'.[0] = 0 -> (forall j, j < k -> p2l'.[j] < p2l'.[S j]) -> (forall j, j < k -> p2l'.[j] < levelNo) ->
     levelNo <= p2l'.[k] -> (2 <= k -> (Z.of_nat p2l'.[k - 1] + md <= Z.of_nat levelNo)%Z) -> Q (k, (sizes, p2l'))) ->
  wp (height_partitioning levelNo lp innerParts md dr p2l) Q.
Proof.
  intros H1 H2 H3 H4 HQ. pose proof (height_more_wp levelNo lp innerParts md dr p2l H1 H2 H3 H4) as HM.
  apply (proj1 (wp_ok _ _ _)) in HM. destruct HM as ([k0 [sizes0 p2l0]] & EH & M1 & M2).
  assert (X : wp (height_partitioning levelNo lp innerParts md dr p2l) (fun r => height_partitioning levelNo lp innerParts md dr p2l = Ok r -> Q r)).
  { apply height_partitioning_wp; auto. intros k sizes p2l' P1 P2 P3 _ P4 P5 P6 P7 P8 P9 P10 E. rewrite EH in E. inversion E; subst k0 sizes0 p2l0.
    apply HQ; auto. destruct (levelNo <=? 2); lia. }
  apply (proj1 (wp_ok _ _ _)) in X. destruct X as (r & Er & Hr). apply wp_ok. exists r. auto.
Qed.

(** * worst_fit_bin_pack with more lists than bins *)
Section Fit.
Context {T : Type} `{DT : Dflt T}.
Variables (add : T -> T -> T) (ltb : T -> T -> bool) (int_max : T).
Variable sortp : list (T * list nat) -> list (T * list nat).

Definition fit_body (bins : nat) : T * list nat -> list (list nat) * list T -> res (list (list nat) * list T) :=
  fun '(c, p) '(merged, outCost) =>
  b <- find_min ltb int_max outCost bins ;;
  o <- rd outCost b ;; outCost <- wr outCost b (add o c) ;;
  l <- rd merged b ;; merged <- wr merged b (l ++ p) ;;
  Ok (merged, outCost).

Lemma upd_app1 {A} `{Dflt A} (l e : list A) i x : i < length l -> upd (l ++ e) i x = upd l i x ++ e.
Proof.
  intros Hi. apply list_ext; [rewrite upd_length, !app_length, upd_length; auto|]. intros j Hj. rewrite upd_length, app_length in Hj.
  rewrite aget_upd by (rewrite app_length; lia). destruct (Nat.eqb_spec j i) as [->|].
  - rewrite aget_app1 by (rewrite upd_length; auto). now rewrite aget_upd_eq.
  - destruct (le_lt_dec (length l) j) as [L|L].
    + rewrite !aget_app2 by (rewrite ?upd_length; auto). now rewrite upd_length.
    + rewrite !aget_app1 by (rewrite ?upd_length; auto). rewrite aget_upd_ne by lia. reflexivity.
Qed.

Lemma fit_app bins e : forall pl mg oc mg' oc', foreach pl (fit_body bins) (mg, oc) = Ok (mg', oc') ->
  length mg' = length mg /\ foreach pl (fit_body bins) (mg ++ e, oc) = Ok (mg' ++ e, oc').
Proof.
  induction pl as [|[c p] pl IH]; intros mg oc mg' oc' E; cbn [foreach] in *.
  { inversion E; subst. auto. }
  destruct (fit_body bins (c, p) (mg, oc)) as [[mg1 oc1]|] eqn:E1; [|discriminate]. cbn [bind] in E.
  destruct (IH _ _ _ _ E) as [L F]. unfold fit_body in E1 |- *.
  destruct (find_min ltb int_max oc bins) as [b|]; [|discriminate]. cbn [bind] in *.
  destruct (rd oc b) as [o|]; [|discriminate]. cbn [bind] in *.
  destruct (wr oc b (add o c)) as [oc2|]; [|discriminate]. cbn [bind] in *.
  destruct (rd mg b) as [l|] eqn:El; [|discriminate]. cbn [bind] in *. destruct (rd_Ok _ _ _ El) as [Hb Eb].
  rewrite wr_ok in E1 by auto. cbn [bind] in E1. inversion E1; subst mg1 oc2.
  rewrite rd_ok by (rewrite app_length; lia). rewrite aget_app1 by auto. rewrite <- Eb. cbn [bind].
  rewrite wr_ok by (rewrite app_length; lia). cbn [bind]. rewrite upd_app1 by auto. rewrite upd_length in L. auto.
Qed.

Lemma worst_fit_len parts ic mg oc bins mg' oc' : worst_fit_bin_pack add ltb int_max sortp parts ic mg oc bins = Ok (mg', oc') -> length mg' = length mg.
Proof.
  unfold worst_fit_bin_pack. destruct (for_ 0 (length parts) _ _) as [pl|]; [|discriminate]. cbn [bind]. intros E.
  pose proof (fit_app bins [] (sortp pl) mg oc mg' oc' E) as F. apply F.
Qed.
Lemma worst_fit_app parts ic mg e oc bins mg' oc' : worst_fit_bin_pack add ltb int_max sortp parts ic mg oc bins = Ok (mg', oc') ->
  worst_fit_bin_pack add ltb int_max sortp parts ic (mg ++ e) oc bins = Ok (mg' ++ e, oc').
Proof.
  unfold worst_fit_bin_pack. destruct (for_ 0 (length parts) _ _) as [pl|]; [|discriminate]. cbn [bind]. intros E.
  pose proof (fit_app bins e (sortp pl) mg oc mg' oc' E) as F. apply F.
Qed.
End Fit.

Definition set_deg {T} (s : @lstate T) (d : list Z) : @lstate T :=
  mkL (l_n2p s) (l_out s) (l_new s) (l_mark s) (l_vis s) d (l_levelPtr s) (l_partPtr s) (l_nodePtr s) (l_parts s).

(** * One slab *)
Section Driver.
Context {T : Type} `{DT : Dflt T}.
Variables (zero : T) (add : T -> T -> T) (ltb : T -> T -> bool) (int_max : T).
Variable sortp : list (T * list nat) -> list (T * list nat).
Hypothesis sort_perm : forall l, Permutation (sortp l) l.
Variable nodeCost : list T.
Variables (nb : nat) (b2c c2b Lip Li : list nat).
Hypothesis BK : blk_ok nb b2c c2b Lip Li.
Local Notation Gp := (gp nb b2c c2b Lip Li).
Local Notation Gi := (gi nb b2c c2b Lip Li).
Hypothesis SP : successors_on_path (edge nb Gp Gi).
Hypothesis Hcost : nb <= length nodeCost.
Variable innerParts : Z.
Hypothesis Hip : (1 <= innerParts)%Z.
Let W : wf_csc nb Gp Gi := g_wf nb b2c c2b Lip Li BK.
Let D1 : one_diag nb Gp Gi.
Proof. apply one_diag_of_first. now apply g_diag_first. Qed.

Section Slab.
Variables (levelNo : nat) (lp ls n2l : list nat).
Hypothesis LO : lev_ok nb Gp Gi levelNo lp ls n2l.
Hypothesis Hne : forall l, l < levelNo -> lp.[l] < lp.[S l].

Lemma bfs_b_wp a b : a < levelNo -> a < b -> forall n2p cc, length n2p = nb ->
  (forall v, slab nb n2l a b v -> exists c, n2p.[v] = Some c /\ c < cc) ->
  (forall u v, slab nb n2l a b u -> slab nb n2l a b v -> edge nb Gp Gi u v -> n2p.[v] = n2p.[u]) ->
  forall deg degb vis (Q : list Z * list bool * list (list nat) -> Prop),
  length deg = nb -> length degb = nb -> length vis = nb ->
  (forall v, v < nb -> a <= n2l.[v] -> degb.[v] = deg.[v]) ->
  (forall v, v < nb -> n2l.[v] < a \/ b <= n2l.[v] -> vis.[v] = true) ->
  (forall v, slab nb n2l a b v -> vis.[v] = false) ->
  (forall v, v < nb -> deg.[v] = (Z.of_nat (remdeg nb Gp Gi (done_ n2l b vis) v) - Z.of_nat (b2n (done_ n2l b vis v)))%Z) ->
  (forall deg' degb' vis' lists, length deg' = nb -> length vis' = nb -> length lists = cc ->
     (forall v, v < nb -> vis'.[v] = true) ->
     (forall v, v < nb -> deg'.[v] = (Z.of_nat (remdeg nb Gp Gi (done_ n2l b vis') v) - Z.of_nat (b2n (done_ n2l b vis' v)))%Z) ->
     (forall c, c < cc -> NoDup lists.[c]) ->
     (forall c v, c < cc -> In v lists.[c] <-> slab nb n2l a b v /\ n2p.[v] = Some c) ->
     (forall c pre v post, c < cc -> lists.[c] = pre ++ v :: post -> forall u, slab nb n2l a b u -> edge nb Gp Gi u v -> In u pre) ->
     length degb' = nb -> (forall v, v < nb -> b <= n2l.[v] -> degb'.[v] = deg'.[v]) -> Q (degb', vis', lists)) ->
  wp (modified_BFS_BCSC b2c c2b Lip Li nb degb vis n2p lp ls a (repeat [] cc)) Q.
Proof.
  intros Ha Hab n2p cc Hn Hc1 Hc2 deg degb vis Q H1 H2 H3 H4 H5 H6 H7 HQ.
  assert (X : wp (modified_BFS_CSC nb Gp Gi deg vis n2p lp ls a (repeat [] cc)) (fun r => modified_BFS_CSC nb Gp Gi deg vis n2p lp ls a (repeat [] cc) = Ok r ->
     wp (modified_BFS_BCSC b2c c2b Lip Li nb degb vis n2p lp ls a (repeat [] cc)) Q)).
  { apply (bfs_wp nb Gp Gi W D1 levelNo lp ls n2l LO a b Ha Hab n2p cc Hn Hc1 Hc2); auto.
    intros deg' vis' lists B1 B2 B3 B4 B5 B6 B7 B8 E.
    destruct (bfs_rel_wp nb b2c c2b Lip Li BK n2p (fun v => n2l.[v] <? a) deg degb vis lp ls a (repeat [] cc) (deg', vis', lists)) as ([[db vb] lb] & Eb & -> & -> & F1 & F2 & F3 & F4).
    - split; [auto|]. split; [auto|]. split; [auto|]. intros v Hv. destruct (le_lt_dec a n2l.[v]) as [A|A]; [left; auto|right].
      split; [apply H5; auto|]. left. lia.
    - exact E.
    - rewrite Eb. apply wp_ok. eexists. split; [reflexivity|]. apply (HQ deg'); auto. intros v Hv Hb. destruct (F4 v Hv) as [A|(_ & [A|A])]; [auto|lia|].
      exfalso. apply in_concat in A. destruct A as (l & Hl & Hv'). apply In_aget in Hl. destruct Hl as (i & Hi & <-). apply B7 in Hv'; [|lia].
      destruct Hv' as ((_ & Hs) & _). lia. }
  apply (proj1 (wp_ok _ _ _)) in X. destruct X as (r & Er & Hr). auto.
Qed.

Lemma bcsc_slab_wp c b l sizes sz p2l ps s db (cuts : nat -> nat) :
  l < length sizes -> 1 <= sizes.[l] <= Z.to_nat innerParts -> sz.[l] = Z.to_nat innerParts ->
  l + 1 < length p2l -> p2l.[l] = c -> p2l.[S l] = b -> cuts l = c -> cuts (S l) = b ->
  c < levelNo -> c < b -> l < nb ->
  (forall new, slab_parts nb Gp Gi lp n2l c b sz.[l] new -> length ps + length new < nb) ->
  st_ok nb Gp Gi n2l c l cuts sz ps s -> length db = nb -> (forall v, v < nb -> c <= n2l.[v] -> db.[v] = (l_deg s).[v]) ->
  wp (bcsc_slab b2c c2b Lip Li add ltb int_max sortp nb lp ls n2l nodeCost levelNo innerParts sizes p2l l (set_deg s db))
     (fun t => exists new s' db', slab_parts nb Gp Gi lp n2l c b sz.[l] new /\ t = set_deg s' db' /\ st_ok nb Gp Gi n2l b (S l) cuts sz (ps ++ new) s' /\
        length db' = nb /\ (forall v, v < nb -> b <= n2l.[v] -> db'.[v] = (l_deg s').[v])).
Proof.
  intros Hl Hs Hsz Hp Ec Eb Cl Cb Hc Hcb Hln Hbd I Ldb Edb. destruct I as [I1 I2 I3 I4 I5 I6 I7 I8 I9 I10 I11 I12 I13 I14 I15 I16 I17 I18 I19 I20 I21].
  pose proof (lo_lp _ _ _ _ _ _ _ LO) as L1. pose proof (lo_le _ _ _ _ _ _ _ LO (S c) ltac:(lia)) as Hn.
  unfold bcsc_slab, set_deg. cbn [l_n2p l_out l_new l_mark l_vis l_deg l_levelPtr l_partPtr l_nodePtr l_parts]. wp1. wp1; [lia|]. rewrite Ec. wp1. wp1; [lia|]. rewrite Eb.
  wp1. apply (mark_levels_wp nb Gp Gi levelNo lp ls n2l LO); auto; [lia|]. intros m1 M1 M2.
  wp1. apply (mark_levels_wp nb Gp Gi levelNo lp ls n2l LO); auto. intros m2 M3 M4.
  wp1. apply (components_b_wp nb b2c c2b Lip Li BK SP levelNo lp ls n2l LO c b Hc Hcb add nodeCost Hcost); auto.
  { intros v (Hv & Hv1). rewrite M4 by auto. replace ((b <=? n2l.[v]) && (n2l.[v] <? levelNo)) with false by lia.
    rewrite M2 by auto. replace ((c - 1 <=? n2l.[v]) && (n2l.[v] <? c)) with false by lia. apply I10; [auto|lia]. }
  { intros v Hv Hv1. rewrite M4 by auto. destruct (lo_in _ _ _ _ _ _ _ LO v Hv) as [Hv2 _].
    now replace ((b <=? n2l.[v]) && (n2l.[v] <? levelNo)) with true by lia. }
  intros n2p oc m3 cc C1 C2 C3 C4 C5 C6 C7. cbv iota.
  wp1. apply (mark_levels_wp nb Gp Gi levelNo lp ls n2l LO); auto; [lia|]. intros m4 M5 M6.
  wp1. apply (mark_levels_wp nb Gp Gi levelNo lp ls n2l LO); auto. intros m5 M7 M8.
  wp1. apply (mark_levels_wp nb Gp Gi levelNo lp ls n2l LO); auto. intros v1 V1 V2.
  assert (V3 : forall v, v < nb -> v1.[v] = (b <=? n2l.[v]) || (n2l.[v] <? c)).
  { intros v Hv. rewrite V2 by auto. rewrite I11 by auto. destruct (lo_in _ _ _ _ _ _ _ LO v Hv) as [Hv2 _].
    replace (n2l.[v] <? levelNo) with true by lia. rewrite andb_true_r. destruct (b <=? n2l.[v]); auto. }
  wp1. apply (bfs_b_wp c b Hc Hcb n2p cc C1 C6 C7 (l_deg s)); auto.
  { intros v Hv Hv1. rewrite V3 by auto. lia. }
  { intros v (Hv & Hv1). rewrite V3 by auto. lia. }
  { intros v Hv. rewrite I12 by auto. assert (E : forall u, u < nb -> done_ n2l b v1 u = (n2l.[u] <? c)).
    { intros u Hu. unfold done_. rewrite V3 by auto. lia. }
    rewrite E by auto. rewrite (remdeg_ext nb Gp Gi (done_ n2l b v1) (fun u => n2l.[u] <? c)); auto. }
  intros deg' degb' v2 lists B1 B2 B3 B4 B5 B6 B7 B8 B9 B10. cbv iota.
  wp1. apply (mark_levels_wp nb Gp Gi levelNo lp ls n2l LO); auto. intros v3 V4 V5.
  wp1. destruct (Z.eqb_spec innerParts 0) as [E0|_]; [lia|]. destruct (Z.ltb_spec innerParts 0) as [E0|_]; [lia|]. wp1. wp1.
  assert (PK : forall Q : list (list nat) * list T -> Prop,
     (forall ps nc', length nc' = nb -> slab_parts nb Gp Gi lp n2l c b sz.[l] ps -> Q (ps, nc')) ->
     wp (if Z.to_nat innerParts <? length lists
     then bins <- rd sizes l ;;
          '(merged, new) <- worst_fit_bin_pack add ltb int_max sortp lists oc (repeat [] (Z.to_nat innerParts)) (l_new s) bins ;;
          if bins <=? length merged then Ok (firstn bins merged, new) else Err OOB
     else Ok (lists, l_new s)) Q).
  { intros Q HQ. destruct (Nat.ltb_spec (Z.to_nat innerParts) (length lists)) as [Hm|Hm].
    - wp1. wp1; [lia|].
      pose proof (pack_wp add ltb int_max sortp sort_perm nodeCost nb Gp Gi Hcost levelNo lp n2l Hne c b sizes.[l] cc n2p lists oc (l_new s)
        (fun r => length (snd r) = nb /\ slab_parts nb Gp Gi lp n2l c b sizes.[l] (fst r))) as P.
      replace (sizes.[l] <? length lists) with true in P by lia.
      assert (P' : wp (worst_fit_bin_pack add ltb int_max sortp lists oc (repeat [] sizes.[l]) (l_new s) sizes.[l])
         (fun r => length (snd r) = nb /\ slab_parts nb Gp Gi lp n2l c b sizes.[l] (fst r))).
      { apply P; auto; lia. }
      clear P. apply (proj1 (wp_ok _ _ _)) in P'. destruct P' as ([mg nc] & Ew & Hnc & Hsp). cbn [fst snd] in *.
      pose proof (worst_fit_len add ltb int_max sortp _ _ _ _ _ _ _ Ew) as Lm. rewrite repeat_length in Lm.
      replace (Z.to_nat innerParts) with (sizes.[l] + (Z.to_nat innerParts - sizes.[l])) by lia. rewrite repeat_app.
      rewrite (worst_fit_app add ltb int_max sortp _ _ _ _ _ _ _ _ Ew). cbn [bind]. rewrite app_length, Lm.
      replace (sizes.[l] <=? sizes.[l] + length (repeat (@nil nat) (Z.to_nat innerParts - sizes.[l]))) with true by lia.
      rewrite <- Lm at 1. rewrite firstn_app, Nat.sub_diag, firstn_all. cbn [firstn]. rewrite app_nil_r. wp1. apply HQ; auto.
      destruct Hsp as (S1 & S2 & S3 & S4 & S5). split; [auto|]. split; [auto|]. split; [auto|]. split; [lia|auto].
    - pose proof (pack_wp add ltb int_max sortp sort_perm nodeCost nb Gp Gi Hcost levelNo lp n2l Hne c b sz.[l] cc n2p lists oc (l_new s) Q) as P.
      replace (sz.[l] <? length lists) with false in P by lia. apply P; auto; lia. }
  apply PK. clear PK.
  intros new nc' Hnc Hnew. cbv iota. pose proof Hnew as (N1 & N2 & N3 & N4 & N5).
  wp1. wp1; [lia|]. wp1. wp1; [lia|]. rewrite I18.
  assert (Hdis : forall v, In v (concat ps) -> ~ In v (concat new)).
  { intros v A B. apply I16 in A. apply N2 in B. destruct B. lia. }
  assert (ND : NoDup (concat (ps ++ new))) by (rewrite concat_app; apply NoDup_app_intro; auto).
  assert (INn : forall v, In v (concat (ps ++ new)) <-> v < nb /\ n2l.[v] < b).
  { intros v. rewrite concat_app, in_app_iff, I16, N2. unfold slab. split; [intros [A|A]; lia|].
    intros [A B]. destruct (le_lt_dec c n2l.[v]); [right; lia|left; lia]. }
  specialize (Hbd new Hnew).
  wp1. rewrite I14. apply (emit_parts_wp nb new n2p (l_partPtr s) (l_nodePtr s) ps); auto; try lia.
  { rewrite I9. apply NoDup_bounded_length; auto. intros v Hv. now apply INn. }
  { intros v Hv. apply N2 in Hv. apply Hv. }
  intros n2p' pp' np' P1 P2 P3 P4. cbv iota. wp1.
  exists new, (mkL n2p' oc nc' m5 v3 deg' (upd (l_levelPtr s) (S l) (length ps + length new)) pp' np' (length ps + length new)), degb'.
  split; [auto|]. split; [reflexivity|]. split; [|auto].
  assert (FL : forall j, j <= l -> (upd (l_levelPtr s) (S l) (length ps + length new)).[j] = (l_levelPtr s).[j]).
  { intros j Hj. apply aget_upd_ne. lia. }
  assert (FS : (upd (l_levelPtr s) (S l) (length ps + length new)).[S l] = length ps + length new) by (apply aget_upd_eq; lia).
  assert (Hle : forall j, j < l -> (l_levelPtr s).[S j] <= length ps).
  { intros j Hj. rewrite <- I18. apply (mono_le (aget (l_levelPtr s)) l); try lia. intros i Hi. apply I19. auto. }
  constructor; cbn [l_n2p l_out l_new l_mark l_vis l_deg l_levelPtr l_partPtr l_nodePtr l_parts]; auto.
  - now rewrite upd_length.
  - congruence.
  - congruence.
  - intros v Hv Hv1. rewrite M8 by auto. destruct (lo_in _ _ _ _ _ _ _ LO v Hv) as [Hv2 _].
    now replace ((b <=? n2l.[v]) && (n2l.[v] <? levelNo)) with true by lia.
  - intros v Hv. rewrite V5 by auto. destruct (lo_in _ _ _ _ _ _ _ LO v Hv) as [Hv2 _]. rewrite B4 by auto.
    destruct ((b <=? n2l.[v]) && (n2l.[v] <? levelNo)) eqn:E; lia.
  - intros v Hv. rewrite B5 by auto. assert (E : forall u, u < nb -> done_ n2l b v2 u = (n2l.[u] <? b)).
    { intros u Hu. unfold done_. rewrite B4 by auto. auto. }
    rewrite E by auto. rewrite (remdeg_ext nb Gp Gi (done_ n2l b v2) (fun u => n2l.[u] <? b)); auto.
  - rewrite app_length. auto.
  - rewrite FL by lia. auto.
  - rewrite app_length. auto.
  - intros j Hj. destruct (Nat.eq_dec j l) as [->|].
    + rewrite FS, FL by lia. rewrite I18. lia.
    + rewrite !FL by lia. apply I19. lia.
  - intros j i v Hj Hi Hv. destruct (Nat.eq_dec j l) as [->|].
    + rewrite FS, FL in Hi by lia. rewrite I18 in Hi. rewrite aget_app2 in Hv by lia. rewrite Cl, Cb.
      apply N2. apply in_concat. exists new.[i - length ps]. split; auto. apply aget_In. lia.
    + rewrite !FL in Hi by lia. specialize (Hle j ltac:(lia)). rewrite aget_app1 in Hv by lia. apply (I20 j i v); auto. lia.
  - intros j i pre v post u Hj Hi Ep Su He. destruct (Nat.eq_dec j l) as [->|].
    + rewrite FS, FL in Hi by lia. rewrite I18 in Hi. rewrite aget_app2 in Ep by lia. rewrite Cl, Cb in Su.
      eapply (N3 new.[i - length ps]); eauto. apply aget_In. lia.
    + rewrite !FL in Hi by lia. specialize (Hle j ltac:(lia)). rewrite aget_app1 in Ep by lia. eapply (I21 j i); eauto. lia.
Qed.
End Slab.

(** * The driver *)
Variables (md dr : Z).
Hypothesis Hmd : (2 <= md)%Z.
Variables (g : Z) (gs : list Z).
Hypothesis Hg : g <> 1%Z.
Hypothesis Hedge : exists u v, bedge nb b2c c2b Lip Li u v.

Theorem bcsc_wp (Q : nat * (list nat * list nat * list nat) -> Prop) :
  (forall k flp fpp fnp, 1 <= k <= nb -> length flp = nb + 1 -> length fpp = nb -> length fnp = nb ->
     valid_schedule nb (edge nb Gp Gi) k flp fpp fnp ->
     (forall l, l < k -> flp.[S l] - flp.[l] <= Z.to_nat innerParts) -> Q (k, (flp, fpp, fnp))) ->
  wp (getCoarseLevelSet_DAG_BCSC02 b2c c2b Lip Li zero add ltb int_max sortp (g :: gs) nb innerParts md dr nodeCost) Q.
Proof.
  intros HQ. unfold getCoarseLevelSet_DAG_BCSC02. destruct Hedge as (eu & ev & He). apply (g_edge nb b2c c2b Lip Li BK) in He.
  assert (Hn : 0 < nb) by (destruct He; lia).
  wp1. wp1; [rewrite repeat_length; lia|]. wp1. apply (bcsc_levels_wp nb b2c c2b Lip Li BK g gs); [auto|]. intros levelNo lp ls HB. cbv iota.
  pose proof HB as (XP & HL1 & HL2 & XN & _ & Hne & XC). specialize (XC Hn).
  wp1. apply lbc_n2l_wp; auto; try lia. intros n2l N1 N2.
  pose proof (blevels_lev_ok nb b2c c2b Lip Li BK levelNo lp ls n2l HB N1 N2) as LO.
  wp1. apply bdegree_wp; auto. intros deg G1 G2.
  wp1. apply height_both_wp; try lia; [rewrite repeat_length; lia|].
  intros k sizes p2l P1 P2 P3 P4 P5 P6 P7 P8 P9 P10. cbv iota.
  set (mn := fun c => lp.[Nat.min c levelNo]).
  assert (Hmn : forall a b, a <= b -> mn a <= mn b).
  { intros a b Hab. apply (lo_mono nb Gp Gi levelNo lp ls n2l LO); lia. }
  set (sz := repeat (Z.to_nat innerParts) k).
  assert (Hsz : forall l, l < k -> sz.[l] = Z.to_nat innerParts) by (intros l Hl; unfold sz; now rewrite aget_repeat).
  set (wid := fun j => lp.[S p2l.[j]] - lp.[p2l.[j]]).
  assert (Hwid : forall j, j < k -> wid j + mn p2l.[j] <= mn p2l.[S j]).
  { intros j Hj. pose proof (P8 j Hj) as H1. pose proof (P7 j Hj) as H2. pose proof (Hmn (S p2l.[j]) p2l.[S j] ltac:(lia)) as H3.
    assert (H4 : mn p2l.[j] = lp.[p2l.[j]]) by (unfold mn; f_equal; lia).
    assert (H5 : mn (S p2l.[j]) = lp.[S p2l.[j]]) by (unfold mn; f_equal; lia).
    specialize (Hne p2l.[j] H1). unfold wid. lia. }
  assert (H00 : mn p2l.[0] = 0) by (rewrite P6; unfold mn; simpl; destruct XP as (E0 & _); exact E0).
  assert (Hk1 : mn p2l.[k] = nb).
  { unfold mn. rewrite Nat.min_r by lia. destruct XP as (_ & _ & E0 & _). exact E0. }
  assert (Hroomy : sum_r 0 k wid < nb).
  { assert (HLv : 2 <= levelNo).
    { pose proof (lo_edge _ _ _ _ _ _ _ LO eu ev He) as H. destruct (wf_edge_lt nb Gp Gi W eu ev He) as [_ Hv].
      destruct (lo_in _ _ _ _ _ _ _ LO ev Hv). lia. }
    assert (sum_r 0 k wid + mn p2l.[0] < mn p2l.[k]); [|lia].
    apply (sum_tele_lt wid (fun j => mn p2l.[j]) k (k - 1)); auto; [lia|]. replace (S (k - 1)) with k by lia.
    assert (Hlast : p2l.[k - 1] + 2 <= levelNo).
    { destruct (Nat.eq_dec k 1) as [->|]; [cbn [Nat.sub]; lia|]. specialize (P10 ltac:(lia)). lia. }
    pose proof (Hmn (S (S p2l.[k - 1])) p2l.[k] ltac:(lia)) as H2. unfold wid. unfold mn in H2 |- *.
    rewrite (Nat.min_l (S (S p2l.[k - 1]))) in H2 by lia. rewrite (Nat.min_l p2l.[k - 1]) by lia.
    pose proof (Hne p2l.[k - 1] ltac:(lia)). pose proof (Hne (S p2l.[k - 1]) ltac:(lia)). lia. }
  wp1.
  apply (wp_for (fun l t => exists ps s db, t = set_deg s db /\ st_ok nb Gp Gi n2l p2l.[l] l (aget p2l) sz ps s /\ length db = nb /\
     (forall v, v < nb -> p2l.[l] <= n2l.[v] -> db.[v] = (l_deg s).[v]) /\ length ps <= sum_r 0 l wid)).
  - lia.
  - exists [], (mkL (repeat None nb) (repeat zero nb) (repeat zero nb) (repeat 0%Z nb) (repeat false nb) deg (upd (repeat 0 (nb + 1)) 0 0) (repeat 0 nb) (repeat 0 nb) 0), deg. rewrite P6. split; [reflexivity|]. split; [|split; [auto|split; [auto|simpl; lia]]].
    constructor; cbn [l_n2p l_out l_new l_mark l_vis l_deg l_levelPtr l_partPtr l_nodePtr l_parts]; rewrite ?upd_length, ?repeat_length; auto; try (intros; lia).
    + intros v Hv _. now rewrite aget_repeat.
    + intros v Hv. rewrite aget_repeat by auto. lia.
    + intros v Hv. rewrite G2 by auto.
      change (fun u => n2l.[u] <? 0) with (fun _ : nat => false). change (n2l.[v] <? 0) with false. cbn [b2n]. lia.
    + split; [|simpl; intros; lia]. intros i Hi. simpl in Hi. replace i with 0 by lia. now rewrite aget_repeat.
    + constructor.
    + intros v. simpl. lia.
    + apply aget_upd_eq. rewrite repeat_length. lia.
    + apply aget_upd_eq. rewrite repeat_length. lia.
  - intros l t Hl (ps & s & db & -> & I & J1 & J2 & B1).
    assert (Hbd : forall new, slab_parts nb Gp Gi lp n2l p2l.[l] p2l.[S l] sz.[l] new -> length ps + length new <= sum_r 0 (S l) wid).
    { intros new (_ & _ & _ & S1 & S2). rewrite sum_r_S by lia. unfold wid at 2. lia. }
    eapply wp_mono.
    + apply (bcsc_slab_wp levelNo lp ls n2l LO Hne p2l.[l] p2l.[S l] l sizes sz p2l ps s db (aget p2l)); auto; try lia.
      * specialize (P3 l ltac:(lia)). lia.
      * apply Hsz. lia.
      * apply P8. lia.
      * apply P7. lia.
      * intros new Hnew. specialize (Hbd new Hnew).
        assert (sum_r 0 (S l) wid <= sum_r 0 k wid); [|lia]. rewrite (sum_r_split 0 (S l) k wid) by lia. lia.
    + intros t (new & s' & db' & Hnew & -> & I' & K1 & K2). exists (ps ++ new), s', db'. rewrite app_length.
      split; [auto|]. split; [auto|]. split; [auto|]. split; [auto|]. now apply Hbd.
  - intros t (ps & s & db & -> & I & J1 & J2 & B1). wp1. pose proof I as I'. destruct I' as [].
    unfold set_deg. cbn [l_levelPtr l_partPtr l_nodePtr]. apply HQ; auto; try lia.
    + eapply (final_schedule add ltb int_max nodeCost nb Gp Gi Hcost levelNo lp ls n2l LO Hne); eauto; try lia.
      intros j Hj. specialize (P7 j Hj). lia.
    + intros l Hl. specialize (so_flm l Hl). rewrite Hsz in so_flm by auto. lia.
Qed.
End Driver.
