(** C97: the graphs for which get_coarse_levelSet_DAG_CSC writes behind its array of parts. *)
From Coq Require Import ZifyBool ZifyNat.
From Verif Require Import Base Lib Lib2 Spec SpecMulti Check L_Util M_LevelSet L_LevelSet L_LevelSet2 L_Ungroup M_LBC L_LBC L_LBC2 L_LBC3 L_LBC4 L_LBC5 L_LBC6
  M_Multi L_Multi L_Multi2 L_LbcCsc P_LBC P_Multi P_Collect L_LBCTree6.

Lemma oo_then {A B} (m : res A) (f : A -> res B) (Q : A -> Prop) R : wp m Q -> (forall x, Q x -> oob_or (f x) R) -> oob_or (bind m f) R.
Proof. intros H1 H2. apply oo_bind, oo_wp. eapply wp_mono; eauto. Qed.
Lemma oo_false {A} (m : res A) : oob_or m (fun _ => False) -> m = Err OOB.
Proof. destruct m; cbn [oob_or]; [easy|]. now intros ->. Qed.
Lemma wp_both {A} (m : res A) (P Q : A -> Prop) : wp m P -> wp m Q -> wp m (fun x => P x /\ Q x).
Proof. destruct m; cbn [wp]; auto. Qed.

Section Full.
Context {T : Type} `{DT : Dflt T}.
Variables (zero : T) (add : T -> T -> T) (ltb : T -> T -> bool) (int_max : T).
Variable sortp : list (T * list nat) -> list (T * list nat).
Hypothesis sort_perm : forall l, Permutation (sortp l) l.
Variable nodeCost : list T.
Variables (n : nat) (Lp Li : list nat).
Hypothesis W : wf_csc n Lp Li.
Hypothesis D1 : one_diag n Lp Li.
Hypothesis Hcost : n <= length nodeCost.
Variable innerParts : Z.
Hypothesis Hip : innerParts <> 0%Z.
Variable bin_pack : bool.

(** a slab whose parts do not fit *)
Lemma csc_slab_full levelNo lp ls n2l c b l sizes sz p2l ps s (cuts : nat -> nat) (R : nat -> Prop) :
  lev_ok n Lp Li levelNo lp ls n2l -> (forall l, l < levelNo -> lp.[l] < lp.[S l]) ->
  l < length sizes -> 1 <= sizes.[l] -> 1 <= sz.[l] ->
  (if bin_pack then sz.[l] = sizes.[l] else sz.[l] = lp.[S c] - lp.[c]) -> l + 1 < length p2l -> p2l.[l] = c -> p2l.[S l] = b ->
  c < levelNo -> c < b -> l < n ->
  (forall n2p0 oc0 m00, length n2p0 = n -> length oc0 = n -> length m00 = n -> (forall v, v < n -> c <= n2l.[v] < b -> m00.[v] = 0%Z) ->
     (forall v, v < n -> b <= n2l.[v] -> m00.[v] = 1%Z) ->
     wp (slab_components add n Lp Li lp ls n2l nodeCost c n2p0 oc0 m00) (fun r => R (snd r))) ->
  (forall cc new, R cc -> slab_parts n Lp Li lp n2l c b sz.[l] new -> (bin_pack = false -> length new = cc) -> new <> [] /\ n <= length ps + length new) ->
  st_ok n Lp Li n2l c l cuts sz ps s ->
  csc_slab add ltb int_max sortp bin_pack n Lp Li lp ls n2l nodeCost levelNo innerParts sizes p2l l s = Err OOB.
Proof.
  intros LO Hne Hl Hs Hsz Hbp Hp Ec Eb Hc Hcb Hln HR Hbd I. destruct I as [I1 I2 I3 I4 I5 I6 I7 I8 I9 I10 I11 I12 I13 I14 I15 I16 I17 I18 I19 I20 I21].
  pose proof (lo_lp _ _ _ _ _ _ _ LO) as L1. pose proof (lo_le _ _ _ _ _ _ _ LO (S c) ltac:(lia)) as Hn.
  apply oo_false. unfold csc_slab. rewrite rd_ok by lia. cbn [bind]. rewrite Ec. rewrite rd_ok by lia. cbn [bind]. rewrite Eb. cbv zeta.
  eapply oo_then.
  { apply (mark_levels_wp n Lp Li levelNo lp ls n2l LO) with (Q := fun m => length m = n /\ forall v, v < n -> m.[v] = if (c - 1 <=? n2l.[v]) && (n2l.[v] <? c) then 1%Z else (l_mark s).[v]); auto; lia. }
  intros m1 [M1 M2]. eapply oo_then.
  { apply (mark_levels_wp n Lp Li levelNo lp ls n2l LO) with (Q := fun m => length m = n /\ forall v, v < n -> m.[v] = if (b <=? n2l.[v]) && (n2l.[v] <? levelNo) then 1%Z else m1.[v]); auto. }
  intros m2 [M3 M4].
  assert (Z0 : forall v, v < n -> c <= n2l.[v] < b -> m2.[v] = 0%Z).
  { intros v Hv Hv1. rewrite M4 by auto. replace ((b <=? n2l.[v]) && (n2l.[v] <? levelNo)) with false by lia.
    rewrite M2 by auto. replace ((c - 1 <=? n2l.[v]) && (n2l.[v] <? c)) with false by lia. apply I10; [auto|lia]. }
  assert (Z1 : forall v, v < n -> b <= n2l.[v] -> m2.[v] = 1%Z).
  { intros v Hv Hv1. rewrite M4 by auto. destruct (lo_in _ _ _ _ _ _ _ LO v Hv) as [Hv2 _].
    now replace ((b <=? n2l.[v]) && (n2l.[v] <? levelNo)) with true by lia. }
  eapply oo_then.
  { apply wp_both; [|apply (HR (l_n2p s) (l_out s) m2); auto].
    apply (components_wp n Lp Li W levelNo lp ls n2l LO c b Hc Hcb add nodeCost Hcost) with (Q := fun r => let '(n2p, oc, m, cc) := r in length n2p = n /\ length oc = n /\ length m = n /\
      cc <= lp.[S c] - lp.[c] /\ (forall v, slab n n2l c b v -> exists c, n2p.[v] = Some c /\ c < cc) /\ (forall u v, slab n n2l c b u -> slab n n2l c b v -> edge n Lp Li u v -> n2p.[v] = n2p.[u])); auto.
    - intros v (Hv & Hv1). auto.
    - intros; splits; auto. }
  intros [[[n2p oc] m3] cc] [(C1 & C2 & C3 & C4 & C6 & C7) CR]. cbn [snd] in CR.
  eapply oo_then.
  { apply (mark_levels_wp n Lp Li levelNo lp ls n2l LO) with (Q := fun m => length m = n); auto; lia. }
  intros m4 M5. eapply oo_then.
  { apply (mark_levels_wp n Lp Li levelNo lp ls n2l LO) with (Q := fun m => length m = n); auto. }
  intros m5 M7. eapply oo_then.
  { apply (mark_levels_wp n Lp Li levelNo lp ls n2l LO) with (Q := fun m => length m = n /\ forall v, v < n -> m.[v] = if (b <=? n2l.[v]) && (n2l.[v] <? levelNo) then true else (l_vis s).[v]); auto. }
  intros v1 [V1 V2].
  assert (V3 : forall v, v < n -> v1.[v] = (b <=? n2l.[v]) || (n2l.[v] <? c)).
  { intros v Hv. rewrite V2 by auto. rewrite I11 by auto. destruct (lo_in _ _ _ _ _ _ _ LO v Hv) as [Hv2 _].
    replace (n2l.[v] <? levelNo) with true by lia. rewrite andb_true_r. destruct (b <=? n2l.[v]); auto. }
  eapply oo_then.
  { apply (bfs_wp n Lp Li W D1 levelNo lp ls n2l LO c b Hc Hcb n2p cc C1 C6 C7) with (Q := fun r => let '(deg', vis', lists) := r in length vis' = n /\ length lists = cc /\
     (forall c, c < cc -> NoDup lists.[c]) /\
     (forall x v, x < cc -> (In v lists.[x] <-> slab n n2l c b v /\ n2p.[v] = Some x)) /\
     (forall x pre v post, x < cc -> lists.[x] = pre ++ v :: post -> forall u, slab n n2l c b u -> edge n Lp Li u v -> In u pre)); auto.
    - intros v Hv Hv1. rewrite V3 by auto. lia.
    - intros v (Hv & Hv1). rewrite V3 by auto. lia.
    - intros v Hv. rewrite I12 by auto. assert (E : forall u, u < n -> done_ n2l b v1 u = (n2l.[u] <? c)).
      { intros u Hu. unfold done_. rewrite V3 by auto. lia. }
      rewrite E by auto. rewrite (remdeg_ext n Lp Li (done_ n2l b v1) (fun u => n2l.[u] <? c)); auto. }
  intros [[deg' v2] lists] (B2 & B3 & B6 & B7 & B8).
  eapply oo_then.
  { apply (mark_levels_wp n Lp Li levelNo lp ls n2l LO) with (Q := fun m => length m = n); auto. }
  intros v3 V4. destruct (Z.eqb_spec innerParts 0) as [E0|_]; [contradiction|]. cbn [bind]. rewrite rd_ok by lia. cbn [bind].
  eapply oo_then with (Q := fun r => slab_parts n Lp Li lp n2l c b sz.[l] (fst r) /\ (bin_pack = false -> length (fst r) = cc)).
  { pose proof (pack_wp add ltb int_max sortp sort_perm nodeCost n Lp Li Hcost levelNo lp n2l Hne c b sz.[l] cc n2p lists oc (l_new s)
      (fun r => slab_parts n Lp Li lp n2l c b sz.[l] (fst r))) as P.
    apply wp_both.
    - destruct bin_pack.
      + rewrite andb_true_r. rewrite <- Hbp. apply P; auto.
      + rewrite andb_false_r. assert (E : sz.[l] <? length lists = false) by (apply Nat.ltb_ge; lia). rewrite E in P. apply P; auto.
    - destruct bin_pack; [|rewrite andb_false_r; cbn [wp fst]; auto]. rewrite andb_true_r. rewrite <- Hbp.
      eapply wp_mono; [apply P; auto|]. intros r _. discriminate. }
  intros [new nc'] [N Nc]. cbn [fst] in N, Nc. destruct (Hbd cc new CR N Nc) as [X1 X2].
  rewrite rd_ok by lia. cbn [bind]. rewrite wr_ok by lia. cbn [bind].
  apply oo_bind. eapply oo_mono; [apply emit_parts_oo|]. intros [[[n2p' pp'] np'] cur'] [->|H]; [easy|]. rewrite I14, I8 in H. lia.
Qed.

(** without edges every node is a component *)
Lemma lone_components levelNo lp ls n2l b : lev_ok n Lp Li levelNo lp ls n2l -> 0 < levelNo -> (forall u v, ~ edge n Lp Li u v) -> lp.[0] = 0 -> lp.[1] = n -> 0 < b ->
  forall n2p0 oc0 m00, length n2p0 = n -> length oc0 = n -> length m00 = n -> (forall v, v < n -> 0 <= n2l.[v] < b -> m00.[v] = 0%Z) ->
  wp (slab_components add n Lp Li lp ls n2l nodeCost 0 n2p0 oc0 m00) (fun r => snd r = n).
Proof.
  intros LO H0 NE E0 E1 Hb n2p0 oc0 m00 H1 H2 H3 H4. unfold slab_components.
  pose proof (lo_lp _ _ _ _ _ _ _ LO) as L1. pose proof (lo_ls _ _ _ _ _ _ _ LO) as L2. pose proof (lo_n2l _ _ _ _ _ _ _ LO) as L3.
  pose proof (lo_part _ _ _ _ _ _ _ LO) as (_ & _ & _ & PB & PI).
  wp1. wp1; [lia|]. wp1. wp1; [lia|]. rewrite E0, E1. wp1.
  apply (wp_for (fun k st => let '(n2p, oc, m, al, un, cc) := st in length n2p = n /\ length oc = n /\ length m = n /\ al = [] /\ length un = n /\ (forall t, un.[t] = false) /\ cc = k /\
    forall i, k <= i < n -> m.[ls.[i]] = 0%Z)).
  - lia.
  - splits; auto; [apply repeat_length| |].
    + intros t. destruct (le_lt_dec n t) as [L|L]; [apply aget_overflow; rewrite repeat_length; lia|now apply aget_repeat].
    + intros i Hi. apply H4; [apply PB; lia|]. rewrite (lo_at _ _ _ _ _ _ _ LO 0 i) by lia. lia.
  - intros k [[[[[n2p oc] m] al] un] cc] Hk (I1 & I2 & I3 & -> & I5 & I6 & -> & I8).
    wp1. wp1; [lia|]. assert (Hleaf : ls.[k] < n) by (apply PB; lia). wp1. wp1; [lia|]. rewrite I8 by lia. rewrite Z.eqb_refl.
    wp1. apply (dfs_wp n Lp Li W ls.[k] m []); auto; [apply I8; lia|]. intros out m1 clash [D1' D2 D3 D4 D5 D6 D7 D8 (new & Dc & D9 & D10)].
    assert (new = []) as ->. { destruct new as [|v t]; [auto|]. destruct (D9 v (or_introl eq_refl)) as (_ & u & _ & C). elim (NE u v C). }
    cbn [app] in Dc. subst clash. cbv iota.
    assert (Hout : forall u, In u out -> u = ls.[k]). { intros u Hu. apply (D8 (fun x => x = ls.[k])); auto. intros x y _ C. elim (NE x y C). }
    wp1. apply make_unique_wp; [auto|intros v []|]. intros mn l' un' U1 U2 U3 U4 U5 U6. destruct (U5 eq_refl) as [-> ->]. cbv iota.
    wp1. apply (number_nodes_wp add n); auto; try lia. { intros v Hv. now apply D3. }
    intros n2p' oc' m' N1 N2 N3 N4 N5 N6 N7. cbn [wp]. splits; auto; try lia.
    intros i Hi. assert (Hi' : ls.[i] < n) by (apply PB; lia).
    assert (ls.[i] <> ls.[k]) by (intros E; apply PI in E; lia).
    assert (NI : ~ In ls.[i] out) by (intros C; now apply Hout in C).
    rewrite N7, D6 by auto. apply I8. lia.
  - intros [[[[[n2p oc] m] al] un] cc] (_ & _ & _ & _ & _ & _ & -> & _). reflexivity.
Qed.

Hypothesis HDF : diag_first n Lp Li.
Variables (md dr : Z).
Hypothesis Hmd : (1 <= md)%Z.
Hypothesis Hdr : (1 <= dr)%Z.

Theorem no_edges_full : bin_pack = false -> 0 < n -> (forall u v, ~ edge n Lp Li u v) ->
  get_coarse_levelSet_DAG_CSC zero add ltb int_max sortp n Lp Li innerParts md dr nodeCost bin_pack = Err OOB.
Proof.
  intros BP Hn NE.
  assert (HCy : ~ has_cycle (edge n Lp Li)).
  { intros (u & k & H). inversion H; subst. eapply NE; eauto. }
  apply oo_false. unfold get_coarse_levelSet_DAG_CSC. rewrite wr_ok by (rewrite repeat_length; lia). cbn [bind].
  eapply oo_then.
  { apply level_set_multi_wp with (Q := fun r => exists Ls, fst r = length Ls /\ multi_ok n 1 Lp Li Ls (fst (snd r)) (snd (snd r))); [auto|lia|].
    intros Ls lp ls HM. exists Ls. auto. }
  intros [lv [lp ls]] (Ls & E & HM). cbn [fst snd] in E, HM. subst lv.
  pose proof (one_partition n Lp Li Ls lp ls W HDF HCy HM) as XP. pose proof (one_nonempty n Lp Li Ls lp ls HM) as Hne.
  pose proof (one_levels_le n Lp Li Ls lp ls HM) as XN. pose proof (one_levels_pos n Lp Li Ls lp ls W HDF HCy HM Hn) as XC.
  pose proof (mo_lp _ _ _ _ _ _ _ HM) as HL1. pose proof (mo_ls _ _ _ _ _ _ _ HM) as HL2. rewrite Nat.mul_1_l in HL2.
  set (levelNo := length Ls) in *.
  eapply oo_then.
  { apply lbc_n2l_wp with (Q := fun n2l => length n2l = n /\ forall l v, l < levelNo -> in_level lp ls l v -> n2l.[v] = l); auto; try lia. }
  intros n2l [N1 N2].
  pose proof (one_lev_ok n Lp Li Ls lp ls W HDF HCy HM n2l N1 N2) as LO. fold levelNo in LO.
  assert (LV : forall v, v < n -> n2l.[v] = 0).
  { intros v Hv. destruct (Nat.eq_dec n2l.[v] 0) as [|Hz]; [auto|]. destruct (lo_pred _ _ _ _ _ _ _ LO v Hv ltac:(lia)) as (u & C & _). elim (NE u v C). }
  assert (L1 : levelNo = 1).
  { destruct (Nat.eq_dec levelNo 1) as [|H1]; [auto|]. exfalso. destruct XP as (_ & _ & X3 & X4 & _). pose proof (Hne 1 ltac:(lia)) as H2.
    assert (lp.[1] < n) by (pose proof (lo_mono _ _ _ _ _ _ _ LO 2 levelNo ltac:(lia) ltac:(lia)); lia).
    assert (n2l.[ls.[lp.[1]]] = 1) as E by (apply (lo_at _ _ _ _ _ _ _ LO 1); lia). rewrite LV in E; [discriminate|]. apply X4. lia. }
  eapply oo_then.
  { apply lbc_deg_wp with (Q := fun deg => length deg = n /\ forall v, v < n -> deg.[v] = Z.of_nat (remdeg n Lp Li (fun _ => false) v)); auto. }
  intros deg [G1 G2].
  eapply oo_then.
  { apply height_wp with (Q := fun r => let '(k, (sizes, p2l)) := r in length p2l = levelNo + 1 /\ 1 <= k <= levelNo /\ length sizes = k /\ p2l.[0] = 0 /\ p2l.[0] < p2l.[1] /\ sizes.[0] = 1); auto; try lia; [rewrite repeat_length; lia|].
    intros k sizes p2l last P1 P2 P3 P4 P5 P6 P7 P8 P9 P10 P11 P12 P13 P14. rewrite repeat_length in P1. splits; auto; try lia; [apply P5; lia|]. rewrite P14 by lia. now replace (0 =? k - 1) with true by lia. }
  intros [k [sizes p2l]] (P1 & P2 & P3 & P4 & P5 & P6). assert (k = 1) by lia. subst k.
  destruct XP as (X0 & _ & X3 & _). rewrite L1 in X3.
  rewrite for_step by lia.
  rewrite (csc_slab_full levelNo lp ls n2l 0 p2l.[1] 0 sizes [n] p2l [] _ (aget p2l) (fun cc => cc = n)); try lia; auto.
  - reflexivity.
  - rewrite BP. cbv iota. change ([n].[0]) with n. lia.
  - intros. apply (lone_components levelNo lp ls n2l p2l.[1]); auto; lia.
  - intros cc new -> _ Hcc. specialize (Hcc BP). split; [intros ->; cbn [length] in Hcc; lia|cbn [length]; lia].
  - constructor; cbn [l_n2p l_out l_new l_mark l_vis l_deg l_levelPtr l_partPtr l_nodePtr l_parts]; rewrite ?upd_length, ?repeat_length; auto; try (intros; lia).
    + intros v Hv _. now rewrite aget_repeat.
    + intros v Hv. rewrite aget_repeat by auto. lia.
    + intros v Hv. rewrite G2 by auto.
      change (fun u => n2l.[u] <? 0) with (fun _ : nat => false). change (n2l.[v] <? 0) with false. cbn [b2n]. lia.
    + split; [|simpl; intros; lia]. intros i Hi. simpl in Hi. replace i with 0 by lia. now rewrite aget_repeat.
    + constructor.
    + intros v. simpl. lia.
    + apply aget_upd_eq. rewrite repeat_length. lia.
    + apply aget_upd_eq. rewrite repeat_length. lia.
Qed.
Theorem two_chain_full : n = 2 -> ~ has_cycle (edge n Lp Li) -> (exists u v, edge n Lp Li u v) -> md = 1%Z ->
  get_coarse_levelSet_DAG_CSC zero add ltb int_max sortp n Lp Li innerParts md dr nodeCost bin_pack = Err OOB.
Proof.
  intros Hn2 HCy (u0 & v0 & HE) Emd. assert (Hn : 0 < n) by lia.
  apply oo_false. unfold get_coarse_levelSet_DAG_CSC. rewrite wr_ok by (rewrite repeat_length; lia). cbn [bind].
  eapply oo_then.
  { apply level_set_multi_wp with (Q := fun r => exists Ls, fst r = length Ls /\ multi_ok n 1 Lp Li Ls (fst (snd r)) (snd (snd r))); [auto|lia|].
    intros Ls lp ls HM. exists Ls. auto. }
  intros [lv [lp ls]] (Ls & E & HM). cbn [fst snd] in E, HM. subst lv.
  pose proof (one_partition n Lp Li Ls lp ls W HDF HCy HM) as XP. pose proof (one_nonempty n Lp Li Ls lp ls HM) as Hne.
  pose proof (one_levels_le n Lp Li Ls lp ls HM) as XN. pose proof (one_levels_pos n Lp Li Ls lp ls W HDF HCy HM Hn) as XC.
  pose proof (mo_lp _ _ _ _ _ _ _ HM) as HL1. pose proof (mo_ls _ _ _ _ _ _ _ HM) as HL2. rewrite Nat.mul_1_l in HL2.
  set (levelNo := length Ls) in *.
  eapply oo_then.
  { apply lbc_n2l_wp with (Q := fun n2l => length n2l = n /\ forall l v, l < levelNo -> in_level lp ls l v -> n2l.[v] = l); auto; try lia. }
  intros n2l [N1 N2].
  pose proof (one_lev_ok n Lp Li Ls lp ls W HDF HCy HM n2l N1 N2) as LO. fold levelNo in LO.
  assert (Hv0 : v0 < n) by (apply (one_edge n Lp Li W HDF), (ME_lt n 1 Lp Li (le_n 1)) in HE; lia).
  assert (Hu0 : u0 < n) by (apply (one_edge n Lp Li W HDF), (ME_lt n 1 Lp Li (le_n 1)) in HE; lia).
  assert (L2 : levelNo = 2).
  { pose proof (lo_edge _ _ _ _ _ _ _ LO u0 v0 HE) as H. destruct (lo_in _ _ _ _ _ _ _ LO v0 Hv0) as [H1 _]. lia. }
  assert (LV : n2l.[u0] = 0 /\ n2l.[v0] = 1).
  { pose proof (lo_edge _ _ _ _ _ _ _ LO u0 v0 HE) as H. destruct (lo_in _ _ _ _ _ _ _ LO v0 Hv0) as [H1 _]. lia. }
  destruct XP as (X0 & _ & X3 & _). rewrite L2 in X3. pose proof (Hne 0 ltac:(lia)) as Hn0. pose proof (Hne 1 ltac:(lia)) as Hn1.
  eapply oo_then.
  { apply lbc_deg_wp with (Q := fun deg => length deg = n /\ forall v, v < n -> deg.[v] = Z.of_nat (remdeg n Lp Li (fun _ => false) v)); auto. }
  intros deg [G1 G2].
  eapply oo_then.
  { apply height_wp with (Q := fun r => let '(k, (sizes, p2l)) := r in length p2l = levelNo + 1 /\ k = 2 /\ length sizes = k /\ p2l.[0] = 0 /\ p2l.[1] = 1 /\ 1 < p2l.[2] /\ 1 <= sizes.[0] /\ sizes.[1] = 1); auto; try lia; [rewrite repeat_length; lia|].
    intros k sizes p2l last P1 P2 P3 P4 P5 P6 P7 P8 P9 P10 P11 P12 P13 P14. rewrite repeat_length in P1. assert (Ek : k = 2) by lia. rewrite Ek in *.
    pose proof (P7 1 ltac:(lia)). pose proof (P5 1 ltac:(lia)). splits; auto; try lia.
    - rewrite P14 by lia. change (0 =? 2 - 1) with false. cbv iota zeta. apply (inner_size_bounds _ (inner_bound innerParts) (inner_bound_pos innerParts)).
    - rewrite P14 by lia. reflexivity. }
  intros [k [sizes p2l]] (P1 & -> & P3 & P4 & P5 & P6 & P7 & P8).
  set (sz := if bin_pack then sizes else [lp.[1] - lp.[0]; lp.[2] - lp.[1]]).
  assert (Z1 : 1 <= sz.[0]). { unfold sz. destruct bin_pack; [lia|]. change (1 <= lp.[1] - lp.[0]). lia. }
  assert (Z2 : sz.[1] = 1). { unfold sz. destruct bin_pack; [lia|]. change (lp.[2] - lp.[1] = 1). lia. }
  rewrite for_step by lia. apply oo_bind. eapply oo_then.
  { apply (csc_slab_wp add ltb int_max sortp sort_perm nodeCost n Lp Li W D1 Hcost innerParts Hip bin_pack levelNo lp ls n2l 0 1 0 sizes sz p2l [] _ (aget p2l)); auto; try lia.
    - unfold sz. destruct bin_pack; reflexivity.
    - intros new (_ & _ & _ & _ & S2). cbn [length]. lia.
    - constructor; cbn [l_n2p l_out l_new l_mark l_vis l_deg l_levelPtr l_partPtr l_nodePtr l_parts]; rewrite ?upd_length, ?repeat_length; auto; try (intros; lia).
      + intros v Hv _. now rewrite aget_repeat.
      + intros v Hv. rewrite aget_repeat by auto. lia.
      + intros v Hv. rewrite G2 by auto.
        change (fun u => n2l.[u] <? 0) with (fun _ : nat => false). change (n2l.[v] <? 0) with false. cbn [b2n]. lia.
      + split; [|simpl; intros; lia]. intros i Hi. simpl in Hi. replace i with 0 by lia. now rewrite aget_repeat.
      + constructor.
      + intros v. simpl. lia.
      + apply aget_upd_eq. rewrite repeat_length. lia.
      + apply aget_upd_eq. rewrite repeat_length. lia. }
  intros s1 (new & (_ & S2 & _) & I1). cbn [app] in I1.
  assert (Hnew : 1 <= length new).
  { destruct new as [|p t]; [|cbn [length]; lia]. exfalso. apply (proj2 (S2 u0)). split; [auto|lia]. }
  rewrite for_step by lia.
  rewrite (csc_slab_full levelNo lp ls n2l 1 p2l.[2] 1 sizes sz p2l new s1 (aget p2l) (fun _ => True)); auto; try lia.
  - reflexivity.
  - unfold sz. destruct bin_pack; reflexivity.
  - intros n2p0 oc0 m00 A1 A2 A3 A4 A5. eapply wp_mono; [|intros; exact I].
    apply (components_wp n Lp Li W levelNo lp ls n2l LO 1 p2l.[2] ltac:(lia) ltac:(lia) add nodeCost Hcost) with (Q := fun _ => True); auto.
    intros v (Hv & Hv1). auto.
  - intros cc nw _ (_ & S3 & _) _. assert (H : nw <> []). { intros ->. apply (proj2 (S3 v0)). split; [auto|lia]. }
    split; [auto|]. destruct nw; [easy|cbn [length]; lia].
Qed.
End Full.

(** Without bin packing and without edges every node is a part of its own: the pointer behind the last part does not fit *)
Theorem C97_no_edges_oob : forall (T : Type) (DT : Dflt T) (zero : T) add ltb int_max sortp n Lp Li innerParts minLevelDist divRate nodeCost,
  (forall l, Permutation (sortp l) l) -> wf_csc n Lp Li -> diag_first n Lp Li -> 0 < n -> (forall u v, ~ edge n Lp Li u v) ->
  innerParts <> 0%Z -> (1 <= minLevelDist)%Z -> (1 <= divRate)%Z -> n <= length nodeCost ->
  get_coarse_levelSet_DAG_CSC zero add ltb int_max sortp n Lp Li innerParts minLevelDist divRate nodeCost false = Err OOB.
Proof. intros. apply no_edges_full; auto. now apply one_diag_of_first. Qed.
Print Assumptions C97_no_edges_oob.

Example C97_no_edges_case : wf_csc 3 [0;1;2;3] [0;1;2] /\ diag_first 3 [0;1;2;3] [0;1;2] /\ forall u v, ~ edge 3 [0;1;2;3] [0;1;2] u v.
Proof.
  splits; [now apply wf_cscb_ok|now apply diag_firstb_ok|]. intros u v (Hu & (k & Hk & E) & Hne). destruct u as [|[|[|u]]]; [| | |lia]; cbn in Hk; assert (k = 0 \/ k = 1 \/ k = 2) as [->|[->| ->]] by lia; cbn in E; lia.
Qed.

(** Two nodes, one depending on the other, and slabs of one level: the two parts do not fit *)
Theorem C97_two_chain_oob : forall (T : Type) (DT : Dflt T) (zero : T) add ltb int_max sortp Lp Li innerParts divRate nodeCost bin_pack,
  (forall l, Permutation (sortp l) l) -> wf_csc 2 Lp Li -> diag_first 2 Lp Li -> ~ has_cycle (edge 2 Lp Li) -> (exists u v, edge 2 Lp Li u v) ->
  innerParts <> 0%Z -> (1 <= divRate)%Z -> 2 <= length nodeCost ->
  get_coarse_levelSet_DAG_CSC zero add ltb int_max sortp 2 Lp Li innerParts 1 divRate nodeCost bin_pack = Err OOB.
Proof. intros. apply two_chain_full; auto; [now apply one_diag_of_first|lia]. Qed.
Print Assumptions C97_two_chain_oob.

Example C97_two_chain_case : wf_csc 2 [0;2;3] [0;1;1] /\ diag_first 2 [0;2;3] [0;1;1] /\ ~ has_cycle (edge 2 [0;2;3] [0;1;1]) /\ exists u v, edge 2 [0;2;3] [0;1;1] u v.
Proof.
  splits; [now apply wf_cscb_ok|now apply diag_firstb_ok|intros (u & k & H); eapply lower_tri_acyclic; eauto; now apply lower_trib_ok|]. exists 0, 1. split; [lia|]. split; [|lia]. exists 1. cbn. lia.
Qed.
