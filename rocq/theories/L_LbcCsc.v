(** Lemmas for get_coarse_levelSet_DAG_CSC (M_Multi.v). *)
From Verif Require Import Base Lib Lib2 Spec SpecMulti L_Util M_LevelSet L_LevelSet L_LevelSet2 L_Ungroup M_LBC L_LBC L_LBC2 L_LBC3 L_LBC4 L_LBC5 L_LBC6 M_Multi L_Multi L_Multi2.
From Coq Require Import ZifyBool ZifyNat.

(** * One copy *)
Section One.
Variables (n : nat) (Lp Li : list nat) (Ls : list (list nat)) (lp ls : list nat).
Hypothesis HW : wf_csc n Lp Li.
Hypothesis HD : diag_first n Lp Li.
Hypothesis HC : ~ has_cycle (edge n Lp Li).
Hypothesis HM : multi_ok n 1 Lp Li Ls lp ls.
Local Notation ME := (copies_edge n 1 (tail_edge n Lp Li)).

Lemma one_edge x y : ME x y <-> edge n Lp Li x y.
Proof.
  split.
  - intros [(q & u & v & Hq & Hu & Hv & Ht & -> & ->)|(q & u & Hq & _)]; [|lia]. replace q with 0 by lia.
    rewrite Nat.mul_0_r, !Nat.add_0_r. now apply tail_edge_diag_first.
  - intros H. apply tail_edge_diag_first in H; auto. destruct (tl_lt n 1 Lp Li HW ltac:(lia) _ _ H) as [Hu Hv].
    left. exists 0, x, y. rewrite Nat.mul_0_r, !Nat.add_0_r. repeat (split; [auto|]); auto.
Qed.
Lemma one_chain x y k : chain ME x y k <-> chain (edge n Lp Li) x y k.
Proof.
  split; intros H; induction H; try constructor; econstructor; eauto; now apply one_edge.
Qed.

Lemma one_placed v : v < n -> In v (concat Ls).
Proof.
  intros Hv. destruct (mem v (concat Ls)) eqn:M; [now apply mem_In|]. apply mem_false in M. exfalso. apply HC.
  destruct (unplaced_chain n 1 Lp Li Ls lp ls HW ltac:(lia) HM n v ltac:(lia) M) as (x & Hx & Hc). apply one_chain in Hc.
  apply (long_walk n _ x v n); auto; [|lia]. intros a b E. split; [apply E|]. apply one_edge in E. apply (ME_lt n 1 Lp Li (le_n 1)) in E. lia.
Qed.

Lemma one_partition : level_partition n (length Ls) lp ls.
Proof.
  destruct (mo_rep _ _ _ _ _ _ _ HM) as [R1 R2]. pose proof (mo_nodup _ _ _ _ _ _ _ HM) as HN. pose proof (mo_lt _ _ _ _ _ _ _ HM) as HL.
  assert (LN : length (concat Ls) = n).
  { apply Nat.le_antisymm.
    - apply NoDup_bounded_length; auto. intros x Hx. apply HL in Hx. lia.
    - rewrite <- (seq_length n 0). apply NoDup_incl_length; [apply seq_NoDup|]. intros x Hx. apply in_seq in Hx. apply one_placed. lia. }
  split; [rewrite R1 by lia; auto|]. split; [|split; [|split]].
  - intros l Hl. rewrite !R1 by lia. rewrite concat_firstn_S by auto. rewrite app_length. lia.
  - rewrite R1 by lia. now rewrite firstn_all.
  - intros i Hi. rewrite R2 by lia. assert ((concat Ls).[i] < 1 * n); [|lia]. apply HL. apply aget_In. lia.
  - intros i j Hi Hj E. rewrite !R2 in E by lia. apply (NoDup_aget (concat Ls)); auto; lia.
Qed.

Lemma one_nonempty l : l < length Ls -> lp.[l] < lp.[S l].
Proof.
  intros Hl. destruct (mo_rep _ _ _ _ _ _ _ HM) as [R1 R2]. rewrite !R1 by lia. rewrite concat_firstn_S by auto. rewrite app_length.
  pose proof (mo_ne _ _ _ _ _ _ _ HM Ls.[l] (aget_In Ls l Hl)). destruct Ls.[l]; [congruence|]. simpl. lia.
Qed.

Lemma one_lev_ok n2l : length n2l = n -> (forall l v, l < length Ls -> in_level lp ls l v -> n2l.[v] = l) -> lev_ok n Lp Li (length Ls) lp ls n2l.
Proof.
  intros H3 H4. pose proof one_partition as HP.
  assert (Hrl : forall l x, l < length Ls -> (in_level lp ls l x <-> In x Ls.[l])) by (intros; eapply rep_level; eauto).
  assert (IN : forall v, v < n -> n2l.[v] < length Ls /\ In v Ls.[n2l.[v]]).
  { intros v Hv. pose proof (one_placed v Hv) as H. apply in_concat_aget in H. destruct H as (l & Hl & H).
    rewrite (H4 l v); [auto|auto|]. apply Hrl; auto. }
  assert (AT : forall l v, l < length Ls -> In v Ls.[l] -> n2l.[v] = l) by (intros l v Hl H; apply H4; [auto|]; now apply Hrl).
  constructor; auto.
  - rewrite (mo_lp _ _ _ _ _ _ _ HM). lia.
  - rewrite (mo_ls _ _ _ _ _ _ _ HM). lia.
  - intros l i Hl Hi. apply H4; auto. exists i. auto.
  - intros u v E. pose proof (proj2 (one_edge u v) E) as E'. pose proof (ME_lt n 1 Lp Li (le_n 1) _ _ E') as [Hu Hv].
    destruct (IN v ltac:(lia)) as [Hl Hin]. destruct (lv_edge n 1 Lp Li Ls lp ls (le_n 1) HM _ u v Hl Hin E') as (l' & Hl' & Hu').
    rewrite (AT l' u); [auto|lia|auto].
  - intros v Hv Hp. destruct (IN v Hv) as [Hl Hin]. destruct n2l.[v] as [|d] eqn:Ed; [lia|].
    destruct (lv_pred n 1 Lp Li Ls lp ls HW ltac:(lia) HM d v Hl Hin) as (u & Hu & E). exists u. split; [now apply one_edge|].
    f_equal. apply AT; auto. lia.
  - intros v Hv. destruct (IN v Hv) as [Hl Hin]. split; [auto|]. apply Hrl in Hin; auto.
Qed.

Lemma one_levels_le : length Ls <= n.
Proof.
  pose proof (concat_ge Ls (mo_ne _ _ _ _ _ _ _ HM)). assert (length (concat Ls) <= n); [|lia].
  apply NoDup_bounded_length; [apply (mo_nodup _ _ _ _ _ _ _ HM)|]. intros x Hx. apply (mo_lt _ _ _ _ _ _ _ HM) in Hx. lia.
Qed.
Lemma one_levels_pos : 0 < n -> 0 < length Ls.
Proof. intros H. pose proof (one_placed 0 H) as Hin. destruct Ls; [destruct Hin|simpl; lia]. Qed.

(** as many levels as nodes: a chain *)
Lemma one_chain_levels : 0 < n -> length Ls = n -> visits_all n (edge n Lp Li).
Proof.
  intros Hn E. assert (Hx : exists x, In x Ls.[n - 1]).
  { pose proof (mo_ne _ _ _ _ _ _ _ HM Ls.[n - 1] (aget_In Ls (n - 1) ltac:(lia))) as H. destruct Ls.[n - 1] as [|x t]; [congruence|]. exists x. now left. }
  destruct Hx as (x & Hx). destruct (lv_depth n 1 Lp Li Ls lp ls HW ltac:(lia) HM (n - 1) x ltac:(lia) Hx) as [(u & Hc) _].
  assert (HB : forall a b, edge n Lp Li a b -> a < n /\ b < n).
  { intros a b He. apply one_edge in He. apply (ME_lt n 1 Lp Li (le_n 1)) in He. lia. }
  apply one_chain in Hc.
  destruct (proj1 (walk_all n (edge n Lp Li) Hn HB)) as [C|C]; [|contradiction|auto].
  exists u, x. split; [|auto].
  destruct (Nat.eq_dec (n - 1) 0) as [E0|E0].
  - rewrite E0 in Hc. assert (Eu : u = x) by (inversion Hc; auto). rewrite Eu. rewrite E0 in Hx. assert (x < 1 * n); [|lia]. apply (mo_lt _ _ _ _ _ _ _ HM).
    apply in_concat_aget. exists 0. split; [lia|auto].
  - destruct (n - 1) as [|m]; [lia|]. apply chain_uncons in Hc. destruct Hc as (w & Hw & _). now apply HB in Hw.
Qed.
End One.

Lemma sum_tele (w f : nat -> nat) k : (forall j, j < k -> w j + f j <= f (S j)) -> sum_r 0 k w + f 0 <= f k.
Proof.
  intros H. induction k as [|k IH]; [rewrite sum_r_nil; lia|]. rewrite sum_r_S by lia. specialize (IH ltac:(intros; apply H; lia)). specialize (H k ltac:(lia)). lia.
Qed.
Lemma sum_tele_lt (w f : nat -> nat) k j0 : (forall j, j < k -> w j + f j <= f (S j)) -> j0 < k -> w j0 + f j0 < f (S j0) -> sum_r 0 k w + f 0 < f k.
Proof.
  intros H H0 H1. assert (E : sum_r 0 k w = sum_r 0 (S j0) w + sum_r (S j0) k w) by (apply sum_r_split; lia).
  pose proof (sum_tele w f j0 ltac:(intros; apply H; lia)) as A. rewrite sum_r_S in E by lia.
  assert (B : forall m, S j0 <= m -> m <= k -> sum_r (S j0) m w + f (S j0) <= f m).
  { intros m Hm. induction Hm as [|m Hm IH]; intros Hk; [rewrite sum_r_nil; lia|]. rewrite sum_r_S by lia. specialize (IH ltac:(lia)). specialize (H m ltac:(lia)). lia. }
  specialize (B k ltac:(lia) ltac:(lia)). lia.
Qed.

(** * The driver *)
Section Driver.
Context {T : Type} `{DT : Dflt T}.
Variables (zero : T) (add : T -> T -> T) (ltb : T -> T -> bool) (int_max : T).
Variable sortp : list (T * list nat) -> list (T * list nat).
Hypothesis sort_perm : forall l, Permutation (sortp l) l.
Variable nodeCost : list T.
Variables (n : nat) (Lp Li : list nat).
Hypothesis W : wf_csc n Lp Li.
Hypothesis D1 : one_diag n Lp Li.
Hypothesis Hcost : n <= length nodeCost.
Variable innerParts : Z.
Hypothesis Hip : innerParts <> 0%Z.
Variable bin_pack : bool.

Lemma csc_slab_wp levelNo lp ls n2l c b l sizes sz p2l ps s (cuts : nat -> nat) :
  lev_ok n Lp Li levelNo lp ls n2l -> (forall l, l < levelNo -> lp.[l] < lp.[S l]) ->
  l < length sizes -> 1 <= sizes.[l] -> 1 <= sz.[l] ->
  (if bin_pack then sz.[l] = sizes.[l] else sz.[l] = lp.[S c] - lp.[c]) -> l + 1 < length p2l -> p2l.[l] = c -> p2l.[S l] = b -> cuts l = c -> cuts (S l) = b ->
  c < levelNo -> c < b -> l < n ->
  (forall new, slab_parts n Lp Li lp n2l c b sz.[l] new -> length ps + length new < n) ->
  st_ok n Lp Li n2l c l cuts sz ps s ->
  wp (csc_slab add ltb int_max sortp bin_pack n Lp Li lp ls n2l nodeCost levelNo innerParts sizes p2l l s)
     (fun s' => exists new, slab_parts n Lp Li lp n2l c b sz.[l] new /\ st_ok n Lp Li n2l b (S l) cuts sz (ps ++ new) s').
Proof.
  intros LO Hne Hl Hs Hsz Hbp Hp Ec Eb Cl Cb Hc Hcb Hln Hbd I. destruct I as [I1 I2 I3 I4 I5 I6 I7 I8 I9 I10 I11 I12 I13 I14 I15 I16 I17 I18 I19 I20 I21].
  pose proof (lo_lp _ _ _ _ _ _ _ LO) as L1. pose proof (lo_le _ _ _ _ _ _ _ LO (S c) ltac:(lia)) as Hn.
  unfold csc_slab. wp1. wp1; [lia|]. rewrite Ec. wp1. wp1; [lia|]. rewrite Eb.
  wp1. apply (mark_levels_wp n Lp Li levelNo lp ls n2l LO); auto; [lia|]. intros m1 M1 M2.
  wp1. apply (mark_levels_wp n Lp Li levelNo lp ls n2l LO); auto. intros m2 M3 M4.
  wp1. apply (components_wp n Lp Li W levelNo lp ls n2l LO c b Hc Hcb add nodeCost Hcost); auto.
  { intros v (Hv & Hv1). rewrite M4 by auto. replace ((b <=? n2l.[v]) && (n2l.[v] <? levelNo)) with false by lia.
    rewrite M2 by auto. replace ((c - 1 <=? n2l.[v]) && (n2l.[v] <? c)) with false by lia. apply I10; [auto|lia]. }
  { intros v Hv Hv1. rewrite M4 by auto. destruct (lo_in _ _ _ _ _ _ _ LO v Hv) as [Hv2 _].
    now replace ((b <=? n2l.[v]) && (n2l.[v] <? levelNo)) with true by lia. }
  intros n2p oc m3 cc C1 C2 C3 C4 C5 C6 C7. cbv iota.
  wp1. apply (mark_levels_wp n Lp Li levelNo lp ls n2l LO); auto; [lia|]. intros m4 M5 M6.
  wp1. apply (mark_levels_wp n Lp Li levelNo lp ls n2l LO); auto. intros m5 M7 M8.
  wp1. apply (mark_levels_wp n Lp Li levelNo lp ls n2l LO); auto. intros v1 V1 V2.
  assert (V3 : forall v, v < n -> v1.[v] = (b <=? n2l.[v]) || (n2l.[v] <? c)).
  { intros v Hv. rewrite V2 by auto. rewrite I11 by auto. destruct (lo_in _ _ _ _ _ _ _ LO v Hv) as [Hv2 _].
    replace (n2l.[v] <? levelNo) with true by lia. rewrite andb_true_r. destruct (b <=? n2l.[v]); auto. }
  wp1. apply (bfs_wp n Lp Li W D1 levelNo lp ls n2l LO c b Hc Hcb n2p cc C1 C6 C7); auto.
  { intros v Hv Hv1. rewrite V3 by auto. lia. }
  { intros v (Hv & Hv1). rewrite V3 by auto. lia. }
  { intros v Hv. rewrite I12 by auto. assert (E : forall u, u < n -> done_ n2l b v1 u = (n2l.[u] <? c)).
    { intros u Hu. unfold done_. rewrite V3 by auto. lia. }
    rewrite E by auto. rewrite (remdeg_ext n Lp Li (done_ n2l b v1) (fun u => n2l.[u] <? c)); auto. }
  intros deg' v2 lists B1 B2 B3 B4 B5 B6 B7 B8. cbv iota.
  wp1. apply (mark_levels_wp n Lp Li levelNo lp ls n2l LO); auto. intros v3 V4 V5.
  wp1. destruct (Z.eqb_spec innerParts 0) as [E0|_]; [contradiction|]. wp1. wp1. wp1; [lia|].
  wp1.
  assert (PK : forall Q : list (list nat) * list T -> Prop,
     (forall ps nc', length nc' = n -> slab_parts n Lp Li lp n2l c b sz.[l] ps -> Q (ps, nc')) ->
     wp (if (sizes.[l] <? length lists) && bin_pack then worst_fit_bin_pack add ltb int_max sortp lists oc (repeat [] sizes.[l]) (l_new s) sizes.[l]
         else Ok (lists, l_new s)) Q).
  { intros Q HQ. pose proof (pack_wp add ltb int_max sortp sort_perm nodeCost n Lp Li Hcost levelNo lp n2l Hne c b sz.[l] cc n2p lists oc (l_new s) Q) as P.
    destruct bin_pack.
    - rewrite andb_true_r. rewrite <- Hbp. apply P; auto.
    - rewrite andb_false_r. assert (E : sz.[l] <? length lists = false) by (apply Nat.ltb_ge; lia). rewrite E in P. apply P; auto. }
  apply PK. clear PK.
  intros new nc' Hnc Hnew. cbv iota. pose proof Hnew as (N1 & N2 & N3 & N4 & N5).
  wp1. wp1; [lia|]. wp1. wp1; [lia|]. rewrite I18.
  assert (Hdis : forall v, In v (concat ps) -> ~ In v (concat new)).
  { intros v A B. apply I16 in A. apply N2 in B. destruct B. lia. }
  assert (ND : NoDup (concat (ps ++ new))) by (rewrite concat_app; apply NoDup_app_intro; auto).
  assert (INn : forall v, In v (concat (ps ++ new)) <-> v < n /\ n2l.[v] < b).
  { intros v. rewrite concat_app, in_app_iff, I16, N2. unfold slab. split; [intros [A|A]; lia|].
    intros [A B]. destruct (le_lt_dec c n2l.[v]); [right; lia|left; lia]. }
  specialize (Hbd new Hnew).
  wp1. rewrite I14. apply (emit_parts_wp n new n2p (l_partPtr s) (l_nodePtr s) ps); auto; try lia.
  { rewrite I9. apply NoDup_bounded_length; auto. intros v Hv. now apply INn. }
  { intros v Hv. apply N2 in Hv. apply Hv. }
  intros n2p' pp' np' P1 P2 P3 P4. cbv iota. wp1. exists new. split; auto.
  assert (FL : forall j, j <= l -> (upd (l_levelPtr s) (S l) (length ps + length new)).[j] = (l_levelPtr s).[j]).
  { intros j Hj. apply aget_upd_ne. lia. }
  assert (FS : (upd (l_levelPtr s) (S l) (length ps + length new)).[S l] = length ps + length new) by (apply aget_upd_eq; lia).
  assert (Hle : forall j, j < l -> (l_levelPtr s).[S j] <= length ps).
  { intros j Hj. rewrite <- I18. apply (mono_le (aget (l_levelPtr s)) l); try lia. intros i Hi. apply I19. auto. }
  constructor; cbn [l_n2p l_out l_new l_mark l_vis l_deg l_levelPtr l_partPtr l_nodePtr l_parts]; auto.
  - now rewrite upd_length.
  - congruence.
  - congruence.
  - intros v Hv Hv1. rewrite M8 by auto. destruct (lo_in _ _ _ _ _ _ _ LO v Hv) as [Hv2 _].
    now replace ((b <=? n2l.[v]) && (n2l.[v] <? levelNo)) with true by lia.
  - intros v Hv. rewrite V5 by auto. destruct (lo_in _ _ _ _ _ _ _ LO v Hv) as [Hv2 _]. rewrite B4 by auto.
    destruct ((b <=? n2l.[v]) && (n2l.[v] <? levelNo)) eqn:E; lia.
  - intros v Hv. rewrite B5 by auto. assert (E : forall u, u < n -> done_ n2l b v2 u = (n2l.[u] <? b)).
    { intros u Hu. unfold done_. rewrite B4 by auto. auto. }
    rewrite E by auto. rewrite (remdeg_ext n Lp Li (done_ n2l b v2) (fun u => n2l.[u] <? b)); auto.
  - rewrite app_length. auto.
  - rewrite FL by lia. auto.
  - rewrite app_length. auto.
  - intros j Hj. destruct (Nat.eq_dec j l) as [->|].
    + rewrite FS, FL by lia. rewrite I18. lia.
    + rewrite !FL by lia. apply I19. lia.
  - intros j i v Hj Hi Hv. destruct (Nat.eq_dec j l) as [->|].
    + rewrite FS, FL in Hi by lia. rewrite I18 in Hi. rewrite aget_app2 in Hv by lia. rewrite Cl, Cb.
      apply N2. apply in_concat. exists new.[i - length ps]. split; auto. apply aget_In. lia.
    + rewrite !FL in Hi by lia. specialize (Hle j ltac:(lia)). rewrite aget_app1 in Hv by lia. apply (I20 j i v); auto. lia.
  - intros j i pre v post u Hj Hi Ep Su He. destruct (Nat.eq_dec j l) as [->|].
    + rewrite FS, FL in Hi by lia. rewrite I18 in Hi. rewrite aget_app2 in Ep by lia. rewrite Cl, Cb in Su.
      eapply (N3 new.[i - length ps]); eauto. apply aget_In. lia.
    + rewrite !FL in Hi by lia. specialize (Hle j ltac:(lia)). rewrite aget_app1 in Ep by lia. eapply (I21 j i); eauto. lia.
Qed.

Hypothesis HDF : diag_first n Lp Li.
Hypothesis HCy : ~ has_cycle (edge n Lp Li).
Variables (md dr : Z).
Hypothesis Hmd : (1 <= md)%Z.
Hypothesis Hdr : (1 <= dr)%Z.

(** enough room in finalPartPtr *)
Definition roomy : Prop :=
  if bin_pack then 3 <= n \/ (n = 2 /\ ((2 <= md)%Z \/ ~ visits_all n (edge n Lp Li)))
  else (2 <= md)%Z /\ exists u v, edge n Lp Li u v.

Theorem csc_wp (Q : nat * (list nat * list nat * list nat) -> Prop) : roomy ->
  (forall k flp fpp fnp, 1 <= k <= n -> length flp = n + 1 -> length fpp = n -> length fnp = n ->
     valid_schedule n (edge n Lp Li) k flp fpp fnp ->
     (bin_pack = true -> (forall l, l < k -> flp.[S l] - flp.[l] <= inner_bound innerParts) /\ flp.[k] - flp.[k - 1] <= 1) -> Q (k, (flp, fpp, fnp))) ->
  wp (get_coarse_levelSet_DAG_CSC zero add ltb int_max sortp n Lp Li innerParts md dr nodeCost bin_pack) Q.
Proof.
  intros Hroom HQ. unfold get_coarse_levelSet_DAG_CSC.
  assert (Hn : 0 < n).
  { unfold roomy in Hroom. destruct bin_pack; [lia|]. destruct Hroom as (_ & u & v & He). destruct He as (He & _). lia. }
  wp1. wp1; [rewrite repeat_length; lia|]. wp1. apply level_set_multi_wp; [auto|lia|]. intros Ls lp ls HM. cbv iota.
  pose proof (one_partition n Lp Li Ls lp ls W HDF HCy HM) as XP. pose proof (one_nonempty n Lp Li Ls lp ls HM) as Hne.
  pose proof (one_levels_le n Lp Li Ls lp ls HM) as XN. pose proof (one_levels_pos n Lp Li Ls lp ls W HDF HCy HM Hn) as XC.
  pose proof (mo_lp _ _ _ _ _ _ _ HM) as HL1. pose proof (mo_ls _ _ _ _ _ _ _ HM) as HL2. rewrite Nat.mul_1_l in HL2.
  set (levelNo := length Ls) in *.
  wp1. apply lbc_n2l_wp; auto; try lia. intros n2l N1 N2.
  pose proof (one_lev_ok n Lp Li Ls lp ls W HDF HCy HM n2l N1 N2) as LO. fold levelNo in LO.
  wp1. apply lbc_deg_wp; auto. intros deg G1 G2.
  wp1. apply height_wp; auto; try lia; [rewrite repeat_length; lia|].
  intros k sizes p2l last P1 P2 P3 P4 P5 P6 P7 P8 P9 P10 P11 P12 P13 P14. rewrite repeat_length in P1. cbv iota.
  assert (Hpos : forall l, l < k -> 1 <= sizes.[l] <= inner_bound innerParts).
  { intros l Hl. rewrite P14 by auto. pose proof (inner_bound_pos innerParts). destruct (l =? k - 1); [lia|]. cbv zeta.
    apply inner_size_bounds. auto. }
  assert (Hend : forall c, c < k -> p2l.[S c] <= S levelNo).
  { intros c Hc. destruct (Nat.eq_dec (S c) k) as [->|]; [lia|]. specialize (P6 (S c) ltac:(lia)). lia. }
  set (mn := fun c => lp.[Nat.min c levelNo]).
  assert (Hmn : forall a b, a <= b -> mn a <= mn b).
  { intros a b Hab. apply (lo_mono n Lp Li levelNo lp ls n2l LO); lia. }
  assert (Hmnn : forall a, mn a <= n) by (intros a; apply (lo_le n Lp Li levelNo lp ls n2l LO); lia).
  set (sz := if bin_pack then sizes else map (fun l => lp.[S p2l.[l]] - lp.[p2l.[l]]) (seq 0 k)).
  assert (Hsz : forall l, l < k -> 1 <= sz.[l] /\ (if bin_pack then sz.[l] = sizes.[l] else sz.[l] = lp.[S p2l.[l]] - lp.[p2l.[l]])).
  { intros l Hl. unfold sz. destruct bin_pack; [split; [apply Hpos; auto|auto]|]. rewrite aget_map by (rewrite seq_length; auto).
    rewrite aget_seq by auto. simpl. split; [|auto]. specialize (Hne p2l.[l] (P6 l Hl)). lia. }
  set (wid := fun j => Nat.min sz.[j] (lp.[S p2l.[j]] - lp.[p2l.[j]])).
  assert (Hwid : forall j, j < k -> wid j + mn p2l.[j] <= mn p2l.[S j]).
  { intros j Hj. pose proof (P6 j Hj) as H1. pose proof (P5 j Hj) as H2. pose proof (Hmn (S p2l.[j]) p2l.[S j] ltac:(lia)) as H3.
    assert (H4 : mn p2l.[j] = lp.[p2l.[j]]) by (unfold mn; f_equal; lia).
    assert (H5 : mn (S p2l.[j]) = lp.[S p2l.[j]]) by (unfold mn; f_equal; lia).
    specialize (Hne p2l.[j] H1). unfold wid. lia. }
  assert (H00 : mn p2l.[0] = 0) by (rewrite P4; unfold mn; simpl; destruct XP as (E0 & _); exact E0).
  assert (Hk1 : mn p2l.[k] = n).
  { unfold mn. rewrite Nat.min_r by lia. destruct XP as (_ & _ & E0 & _). exact E0. }
  assert (Hroomy : sum_r 0 k wid < n).
  { unfold roomy in Hroom. destruct bin_pack eqn:Ebp.
    - destruct (Nat.eq_dec last 0) as [L0|L0].
      + (* a chain *)
        assert (Hi : forall i, i <= levelNo -> lp.[i] = i).
        { destruct XP as (E0 & _). induction i as [|i IH]; intros Hi; auto. rewrite P10 by lia. rewrite IH by lia. auto. }
        assert (EN : levelNo = n) by (destruct XP as (_ & _ & E & _); rewrite Hi in E by lia; lia).
        assert (Hk2 : k <= 2). { destruct (le_lt_dec k 2) as [|Hk2]; [auto|]. specialize (P12 2 ltac:(lia)). lia. }
        assert (Hw1 : forall j, j < k -> wid j <= 1).
        { intros j Hj. unfold wid. rewrite !Hi by (specialize (P6 j Hj); lia). lia. }
        assert (Hs : sum_r 0 k wid <= k).
        { apply Nat.le_trans with (sum_r 0 k (fun _ => 1)); [apply sum_r_le; intros i H; apply Hw1; lia|]. rewrite sum_r_const. lia. }
        pose proof (one_chain_levels n Lp Li Ls lp ls W HDF HCy HM Hn EN) as HV. destruct Hroom as [R3|[R2 [Rm|Rv]]]; [lia| |contradiction].
        destruct P8 as [(_ & E1 & _)|(E1 & _)]; lia.
      + (* the slab with the last wide level *)
        specialize (P11 ltac:(lia)).
        assert (Hw : lp.[last - 1] + 2 <= lp.[last]).
        { pose proof (Hne (last - 1) ltac:(lia)) as H. replace (S (last - 1)) with last in H by lia. lia. }
        assert (Hex : exists j0, j0 < k /\ p2l.[j0] < last /\ last <= p2l.[S j0]).
        { assert (G : forall m, m <= k -> last <= p2l.[m] -> exists j0, j0 < k /\ p2l.[j0] < last /\ last <= p2l.[S j0]).
          { induction m as [|m IHm]; intros Hm Hlm; [lia|]. destruct (le_lt_dec last p2l.[m]) as [A|A]; [apply IHm; [lia|auto]|].
            exists m. split; [lia|auto]. }
          apply (G k); lia. }
        destruct Hex as (j0 & Hj0 & A & B).
        assert (sum_r 0 k wid + mn p2l.[0] < mn p2l.[k]); [|lia].
        apply (sum_tele_lt wid (fun j => mn p2l.[j]) k j0); auto.
        assert (Hq : mn p2l.[j0] + 2 <= mn p2l.[S j0]).
        { pose proof (Hmn p2l.[j0] (last - 1) ltac:(lia)). pose proof (Hmn last p2l.[S j0] B).
          unfold mn in *. rewrite (Nat.min_l last) in * by lia. rewrite (Nat.min_l (last - 1)) in * by lia. lia. }
        assert (Hsj : sz.[j0] < mn p2l.[S j0] - mn p2l.[j0]); [|unfold wid; lia]. unfold sz.
        rewrite P14 by auto. destruct (Nat.eqb_spec j0 (k - 1)) as [->|Hlk]; [lia|]. cbv zeta.
        assert (k = 2).
        { destruct (Nat.eq_dec k 2) as [|]; auto. exfalso. pose proof (P12 (k - 1) ltac:(lia)).
          assert (p2l.[S j0] <= p2l.[k - 1]); [|lia]. apply (mono_le (aget p2l) k); try lia. intros i Hi. specialize (P5 i Hi). lia. }
        assert (j0 = 0) by lia. subst k j0. simpl Nat.eqb. cbv iota.
        pose proof (P6 1 ltac:(lia)) as H1. pose proof (P5 0 ltac:(lia)) as H0. rewrite P4 in *.
        pose proof (Hmn 0 (p2l.[1] - 1) ltac:(lia)) as H2. unfold mn in *. rewrite !Nat.min_l in * by lia.
        pose proof (Hne (p2l.[1] - 1) ltac:(lia)) as H3. replace (S (p2l.[1] - 1)) with p2l.[1] in H3 by lia.
        destruct (inner_size_bounds ((lp.[p2l.[1]] - lp.[p2l.[1] - 1]) / 2) (inner_bound innerParts) (inner_bound_pos innerParts)) as [_ [H4|H4]]; [|lia].
        pose proof (Nat.div_lt (lp.[p2l.[1]] - lp.[p2l.[1] - 1]) 2 ltac:(lia) ltac:(lia)). lia.
    - destruct Hroom as (Hm2 & u & v & He).
      assert (HLv : 2 <= levelNo).
      { pose proof (lo_edge _ _ _ _ _ _ _ LO u v He) as H. pose proof (lo_in _ _ _ _ _ _ _ LO v) as H2.
        assert (Hv : v < n) by (apply (one_edge n Lp Li W HDF), (ME_lt n 1 Lp Li (le_n 1)) in He; lia). destruct (H2 Hv). lia. }
      assert (sum_r 0 k wid + mn p2l.[0] < mn p2l.[k]); [|lia].
      apply (sum_tele_lt wid (fun j => mn p2l.[j]) k 0); auto; [lia|].
      assert (Hp1 : 2 <= p2l.[1]).
      { destruct P8 as [(_ & E1 & E2)|(E1 & E2 & _)]; [rewrite E1 in E2; lia|]. specialize (P7 1 ltac:(lia)). lia. }
      pose proof (Hmn 2 p2l.[1] Hp1) as H2. unfold wid. rewrite P4 in *. unfold mn in H2 |- *. rewrite (Nat.min_l 2) in H2 by lia.
      simpl Nat.min. specialize (Hne 1 ltac:(lia)). destruct XP as (E0 & _). rewrite E0. lia. }
  wp1.
  apply (wp_for (fun l s => exists ps, st_ok n Lp Li n2l p2l.[l] l (aget p2l) sz ps s /\ length ps <= sum_r 0 l wid)).
  - lia.
  - exists []. rewrite P4. split; [|simpl; lia].
    constructor; cbn [l_n2p l_out l_new l_mark l_vis l_deg l_levelPtr l_partPtr l_nodePtr l_parts]; rewrite ?upd_length, ?repeat_length; auto; try (intros; lia).
    + intros v Hv _. now rewrite aget_repeat.
    + intros v Hv. rewrite aget_repeat by auto. lia.
    + intros v Hv. rewrite G2 by auto.
      change (fun u => n2l.[u] <? 0) with (fun _ : nat => false). change (n2l.[v] <? 0) with false. cbn [b2n]. lia.
    + split; [|simpl; intros; lia]. intros i Hi. simpl in Hi. replace i with 0 by lia. now rewrite aget_repeat.
    + constructor.
    + intros v. simpl. lia.
    + apply aget_upd_eq. rewrite repeat_length. lia.
    + apply aget_upd_eq. rewrite repeat_length. lia.
  - intros l s Hl (ps & I & B1).
    assert (Hbd : forall new, slab_parts n Lp Li lp n2l p2l.[l] p2l.[S l] sz.[l] new -> length ps + length new <= sum_r 0 (S l) wid).
    { intros new (_ & _ & _ & S1 & S2). rewrite sum_r_S by lia. unfold wid at 2. lia. }
    destruct (Hsz l ltac:(lia)) as [Hsz1 Hsz2].
    eapply wp_mono.
    + apply (csc_slab_wp levelNo lp ls n2l p2l.[l] p2l.[S l] l sizes sz p2l ps s (aget p2l)); auto; try lia.
      * apply Hpos. lia.
      * apply P6. lia.
      * apply P5. lia.
      * intros new Hnew. specialize (Hbd new Hnew). 
        assert (sum_r 0 (S l) wid <= sum_r 0 k wid); [|lia]. rewrite (sum_r_split 0 (S l) k wid) by lia. lia.
    + intros s' (new & Hnew & I'). exists (ps ++ new). rewrite app_length. split; [auto|]. now apply Hbd.
  - intros s (ps & I & B1). assert (Hk : levelNo <= p2l.[k]) by lia.
    destruct (Nat.eqb_spec k 0) as [|_]; [lia|]. wp1. pose proof I as I'. destruct I' as [].
    apply HQ; auto; try lia.
    + eapply (final_schedule add ltb int_max nodeCost n Lp Li Hcost levelNo lp ls n2l LO Hne); eauto; try lia.
      intros j Hj. specialize (P5 j Hj). lia.
    + intros Ebp. unfold sz in so_flm. rewrite Ebp in so_flm. split.
      * intros l Hl. specialize (so_flm l Hl). specialize (Hpos l Hl). lia.
      * specialize (so_flm (k - 1) ltac:(lia)). replace (S (k - 1)) with k in so_flm by lia. rewrite P14 in so_flm by lia.
        rewrite Nat.eqb_refl in so_flm. lia.
Qed.
End Driver.
