(** Proofs about the parallel LBC coarsening: threads, output, whole routine. *)
From Verif Require Import Base Lib Lib2 Spec M_LevelSet L_LevelSet L_LevelSet2 M_CC P_CC M_LBC M_LBCPar L_LBC L_LBC2 L_LBC3 L_LBC4 L_LBC5 L_LBC6 L_LBCPar L_LBCPar2.
From Coq Require Import ZifyBool ZifyNat Sorted.

Definition incr (l : list nat) : Prop := StronglySorted lt l.

Lemma incr_app l x : incr l -> (forall y, In y l -> y < x) -> incr (l ++ [x]).
Proof.
  induction 1 as [|h t HS IH HF]; intros HB; simpl; [repeat constructor|]. constructor.
  - apply IH. intros; apply HB; now right.
  - apply Forall_app. split; auto. constructor; auto. apply HB. now left.
Qed.

Lemma incr_mid l1 x l2 : incr (l1 ++ x :: l2) -> forall y, In y l1 -> y < x.
Proof.
  induction l1 as [|h t IH]; simpl; [intros _ y []|]. intros HS. inversion HS; subst. intros y [<-|Hy]; [|now apply IH].
  rewrite Forall_forall in H2. apply H2. apply in_app_iff. right. now left.
Qed.

(** every slab goes to one thread, and every thread does its slabs in increasing order *)
Definition dist_ok (dist : list nat -> list (list nat)) : Prop :=
  forall l, incr l -> Permutation (concat (dist l)) l /\ forall t, In t (dist l) -> incr t.

Section Par.
Context {T : Type} `{DT : Dflt T}.
Variables (zero : T) (add : T -> T -> T) (ltb : T -> T -> bool) (int_max : T).
Variable sortp : list (T * list nat) -> list (T * list nat).
Hypothesis sort_perm : forall l, Permutation (sortp l) l.
Variable racy : nat -> list T -> list T.
Hypothesis racy_len : forall l x, length (racy l x) = length x.
Variable dist : list nat -> list (list nat).
Hypothesis Hdist : dist_ok dist.

Section Threads.
Variable nodeCost : list T.
Variables (n : nat) (Lp Li : list nat).
Hypothesis W : wf_csc n Lp Li.
Hypothesis D1 : one_diag n Lp Li.
Hypothesis Hcost : n <= length nodeCost.
Variables (levelNo : nat) (lp ls n2l : list nat).
Hypothesis LO : lev_ok n Lp Li levelNo lp ls n2l.
Hypothesis Hlen : S levelNo < length lp.
Hypothesis Htail : lp.[S levelNo] = 0.
Variable innerParts : Z.
Hypothesis Hip : innerParts <> 0%Z.
Variables (k : nat) (sizes p2l junk : list nat).
Hypothesis Hjunk : length junk = n.
Hypothesis Hsz : length sizes = k.
Hypothesis Hs1 : forall l, l < k -> 1 <= sizes.[l].
Hypothesis Hp2l : k < length p2l.
Hypothesis Hlow : forall l, l < k -> p2l.[l] < levelNo.
Hypothesis Hup : forall l, l < k -> p2l.[S l] <= S levelNo.
Hypothesis Hinc : forall l, l < k -> p2l.[l] < p2l.[S l].

Local Notation good m l := (slab_parts n Lp Li lp n2l p2l.[l] p2l.[S l] sizes.[l] (aget (A := list (list nat)) m l)).

Lemma thread_wp large slabs merged : incr slabs -> (forall l, In l slabs -> l < k) -> length merged = k ->
  wp (run_thread zero add ltb int_max sortp racy n Lp Li lp ls n2l nodeCost levelNo innerParts sizes p2l true large slabs junk merged)
     (fun m => length m = k /\ forall l, l < k -> (In l slabs -> good m l) /\ (~ In l slabs -> m.[l] = merged.[l])).
Proof.
  intros HS HB HM. unfold run_thread. wp1.
  apply (wp_foreach (fun pre '(s, m) => length m = k /\ (forall l, l < k -> (forall x, In x pre -> x < l) -> th_ok n n2l p2l.[l] s) /\
    forall l, l < k -> (In l pre -> good m l) /\ (~ In l pre -> m.[l] = merged.[l]))).
  - splits; auto.
    + intros l Hl _. unfold th_ok. cbn [t_vis t_out t_new t_n2p]. rewrite !repeat_length. splits; auto. intros v Hv _. now rewrite aget_repeat.
    + intros l Hl. split; [intros []|auto].
  - intros pre l post [s m] E (I1 & I2 & I3).
    assert (Hl : l < k) by (apply HB; rewrite E; apply in_app_iff; right; now left).
    assert (Hpre : forall x, In x pre -> x < l) by (rewrite E in HS; eapply incr_mid; eauto).
    wp1. eapply wp_mono.
    + apply (process_wp add ltb int_max sortp sort_perm racy racy_len nodeCost n Lp Li W D1 Hcost levelNo lp ls n2l LO Hlen Htail innerParts Hip p2l.[l] p2l.[S l] l large sizes p2l s); auto; lia.
    + intros [s' parts] (T1 & T2). wp1. wp1; [lia|]. wp1. rewrite upd_length. splits; auto.
      * intros l' Hl' Hx. assert (Hll : l < l') by (apply Hx; apply in_app_iff; right; now left).
        assert (p2l.[S l] <= p2l.[l']) by (apply (mono_le (aget p2l) k); try lia; intros i Hi; specialize (Hinc i Hi); lia).
        destruct T1 as (A1 & A2 & A3 & A4 & A5). unfold th_ok. splits; auto. intros v Hv Hv2. apply A5; auto. lia.
      * intros l' Hl'. destruct (Nat.eq_dec l' l) as [->|Hne].
        -- rewrite aget_upd_eq by lia. split; auto. intros H. elim H. apply in_app_iff. right. now left.
        -- rewrite aget_upd_ne by auto. destruct (I3 l' Hl') as (J1 & J2). split.
           ++ intros H. apply in_app_iff in H. destruct H as [H|[H|[]]]; [auto|congruence].
           ++ intros H. apply J2. intros X. apply H. apply in_app_iff. auto.
  - intros [s m] (I1 & I2 & I3). wp1. split; auto.
Qed.

Lemma slab_size_wp a b : b <= S levelNo -> wp (slab_size lp ls a b) (fun _ => True).
Proof.
  intros Hb. unfold slab_size. destruct (le_lt_dec b a) as [L|L]; [rewrite for_nil by lia; wp1; auto|].
  apply (wp_for (fun _ _ => True)); auto; [lia|]. intros i c Hi _. wp1. wp1; [lia|]. wp1. wp1; [lia|].
  destruct (le_lt_dec lp.[S i] lp.[i]) as [M|M]; [rewrite for_nil by lia; wp1; auto|].
  assert (Hi2 : i < levelNo). { destruct (Nat.eq_dec i levelNo) as [->|]; lia. }
  pose proof (lo_le _ _ _ _ _ _ _ LO (S i) ltac:(lia)). pose proof (lo_ls _ _ _ _ _ _ _ LO).
  apply (wp_for (fun _ _ => True)); auto; [lia|]. intros j c' Hj _. wp1. wp1; [lia|]. wp1. auto.
Qed.

Lemma split_wp : wp (split_slabs lp ls p2l k) (fun '(large, small) => incr large /\ incr small /\
   forall l, (In l large \/ In l small) <-> l < k).
Proof.
  unfold split_slabs.
  apply (wp_for (fun j '(large, small) => incr large /\ incr small /\ forall l, (In l large \/ In l small) <-> l < j)).
  - lia.
  - splits; [constructor|constructor|]. intros l. simpl. lia.
  - intros j [large small] Hj (I1 & I2 & I3). wp1. wp1; [lia|]. wp1. wp1; [lia|]. wp1.
    eapply wp_mono; [apply slab_size_wp; apply Hup; lia|]. intros c _. wp1.
    assert (Hlt : forall y, In y large \/ In y small -> y < j) by (intros y Hy; now apply I3).
    destruct (250000 <? Z.of_nat c)%Z; splits; auto; try (apply incr_app; auto);
      intros l; rewrite in_app_iff; simpl; specialize (I3 l); destruct (Nat.eq_dec l j) as [Elj|Elj];
      (split; [intros H; first [lia|enough (l < j) by lia; apply I3; intuition congruence]|
               intros H; first [intuition congruence|assert (In l large \/ In l small) by (apply I3; lia); tauto]]).
  - intros [large small] H. exact H.
Qed.

Lemma all_slabs_wp large small (Q : list (list (list nat)) -> Prop) : incr large -> incr small -> (forall l, (In l large \/ In l small) <-> l < k) ->
  (forall m, length m = k -> (forall l, l < k -> good m l) -> Q m) ->
  wp (merged <- run_thread zero add ltb int_max sortp racy n Lp Li lp ls n2l nodeCost levelNo innerParts sizes p2l true true large junk (repeat [] k) ;;
      foreach (dist small) (fun slabs merged =>
    run_thread zero add ltb int_max sortp racy n Lp Li lp ls n2l nodeCost levelNo innerParts sizes p2l true false slabs junk merged) merged) Q.
Proof.
  intros H1 H2 H3 HQ. wp1. eapply wp_mono; [apply thread_wp; auto; [intros l Hl; apply H3; auto|apply repeat_length]|].
  intros m (M1 & M2). destruct (Hdist small H2) as (P & HI).
  apply (wp_foreach (fun pre m' => length m' = k /\ forall l, l < k -> In l large \/ In l (concat pre) -> good m' l)).
  - split; auto. intros l Hl [HL|[]]. now apply M2.
  - intros pre t post m' E (I1 & I2).
    assert (HT : In t (dist small)) by (rewrite E; apply in_app_iff; right; now left).
    eapply wp_mono; [apply thread_wp; auto|].
    + intros l Hl. apply H3. right. apply (Permutation_in _ P). apply in_concat. eauto.
    + intros m'' (J1 & J2). split; auto. intros l Hl HI2. destruct (J2 l Hl) as (A & B).
      destruct (in_dec Nat.eq_dec l t) as [Hin|Hnin]; auto. rewrite B by auto. apply I2; auto.
      destruct HI2 as [HI2|HI2]; auto. right. rewrite concat_app in HI2. apply in_app_iff in HI2. destruct HI2 as [|HI2]; auto.
      simpl in HI2. rewrite app_nil_r in HI2. contradiction.
  - intros m' (I1 & I2). apply HQ; auto. intros l Hl. apply I2; auto. destruct (proj2 (H3 l) Hl) as [|HS]; auto. right.
    apply (Permutation_in _ (Permutation_sym P)). auto.
Qed.

(** output arrays, as the sequential driver's state *)
Definition fake (c : nat) (fl pp np : list nat) (cur : nat) : @lstate T :=
  mkL (repeat None n) (repeat zero n) (repeat zero n) (repeat 0%Z n) (map (fun v => n2l.[v] <? c) (seq 0 n))
      (map (fun v => (Z.of_nat (remdeg n Lp Li (fun u => n2l.[u] <? c)%nat v) - Z.of_nat (b2n (n2l.[v] <? c)%nat))%Z) (seq 0 n)) fl pp np cur.

Lemma emit_slab_wp parts pp np ps (Q : list nat * list nat * nat -> Prop) :
  rep ps pp np -> length ps + length parts < length pp ->
  length (concat (ps ++ parts)) <= length np -> (forall v, In v (concat parts) -> v < n) ->
  (forall pp' np', length pp' = length pp -> length np' = length np ->
     rep (ps ++ parts) pp' np' -> Q (pp', np', length ps + length parts)) ->
  wp (foreach parts (fun p '(pp, np, cur) =>
       base <- rd pp cur ;;
       '(np, e) <- foreach p (fun v '(np, e) => _ <- rd nodeCost v ;; np <- wr np (base + e) v ;; Ok (np, S e)) (np, 0) ;;
       pp <- wr pp (S cur) (base + e) ;; Ok (pp, np, S cur)) (pp, np, length ps)) Q.
Proof.
  intros HR H2 H3 H4 HQ.
  apply (wp_foreach (fun pre '(pp', np', cur) => length pp' = length pp /\ length np' = length np /\
     rep (ps ++ pre) pp' np' /\ cur = length ps + length pre)).
  - splits; auto. now rewrite app_nil_r.
  - intros pre p post [[pp' np'] cur] E (I2 & I3 & (R1 & R2) & ->).
    assert (Hpre : length pre + 1 <= length parts) by (rewrite E, app_length; simpl; lia).
    assert (Hsize : length (concat (ps ++ pre)) + length p <= length np).
    { rewrite E in H3. rewrite !concat_app in H3. simpl in H3. rewrite !app_length in H3. rewrite concat_app, app_length. lia. }
    assert (Hb : pp'.[length ps + length pre] = length (concat (ps ++ pre))).
    { rewrite R1 by (rewrite app_length; lia). rewrite firstn_all2; auto. rewrite app_length. lia. }
    wp1. wp1; [lia|]. rewrite Hb. set (B := length (concat (ps ++ pre))) in *. wp1.
    apply (wp_foreach (fun q '(np1, k) => length np1 = length np /\ k = length q /\
       (forall i, i < B -> np1.[i] = (concat (ps ++ pre)).[i]) /\ (forall i, i < k -> np1.[B + i] = q.[i]))).
    + splits; auto. intros i Hi. simpl in Hi. lia.
    + intros q v q2 [np1 k0] Ep (J2 & -> & J3 & J4).
      assert (Hq : length q < length p) by (rewrite Ep, app_length; simpl; lia).
      assert (Hv : v < n).
      { apply H4. rewrite E, concat_app. apply in_app_iff. right. simpl. apply in_app_iff. left. rewrite Ep. apply in_app_iff. right. now left. }
      wp1. wp1; [lia|]. wp1. wp1; [lia|]. wp1. rewrite !upd_length. splits; auto.
      * rewrite app_length. simpl. lia.
      * intros i Hi. rewrite aget_upd_ne by lia. auto.
      * intros i Hi. rewrite aget_upd by lia. destruct (Nat.eqb_spec (B + i) (B + length q)) as [Ei|Ei].
        -- replace i with (length q) by lia. now rewrite aget_app_last.
        -- rewrite aget_app1 by lia. apply J4. lia.
    + intros [np1 k0] (J2 & -> & J3 & J4). wp1. wp1; [lia|]. wp1.
      splits; auto; [now rewrite upd_length| |rewrite app_length; simpl; lia].
      assert (Ec : concat (ps ++ pre ++ [p]) = concat (ps ++ pre) ++ p).
      { rewrite app_assoc, concat_app. simpl. now rewrite app_nil_r. }
      split.
      * intros i Hi. rewrite !app_length in Hi. simpl in Hi. rewrite aget_upd by lia.
        destruct (Nat.eqb_spec i (S (length ps + length pre))) as [->|Hne].
        -- rewrite firstn_all2 by (rewrite !app_length; simpl; lia). rewrite Ec, app_length. auto.
        -- rewrite R1 by (rewrite app_length; lia). rewrite app_assoc. rewrite (firstn_app i (ps ++ pre)).
           replace (i - length (ps ++ pre)) with 0 by (rewrite app_length; lia). now rewrite app_nil_r.
      * rewrite Ec. intros k0 Hk. rewrite app_length in Hk. fold B in Hk. destruct (le_lt_dec B k0) as [L|L].
        -- rewrite aget_app2 by (fold B; lia). fold B. rewrite <- J4 by lia. f_equal. lia.
        -- rewrite aget_app1 by (fold B; lia). auto.
  - intros [[pp' np'] cur] (I2 & I3 & R & ->). apply HQ; auto.
Qed.

Lemma out_step c b l cuts ps new fl pp np pp' np' :
  st_ok n Lp Li n2l c l cuts sizes ps (fake c fl pp np (length ps)) -> cuts l = c -> cuts (S l) = b -> l < n -> c < b ->
  slab_parts n Lp Li lp n2l c b sizes.[l] new -> length pp' = n -> length np' = n -> rep (ps ++ new) pp' np' ->
  st_ok n Lp Li n2l b (S l) cuts sizes (ps ++ new) (fake b (upd fl (S l) (fl.[l] + length new)) pp' np' (length ps + length new)).
Proof.
  intros I Cl Cb Hln Hcb Hnew P2 P3 P4. destruct I as [I1 I2 I3 I4 I5 I6 I7 I8 I9 I10 I11 I12 I13 I14 I15 I16 I17 I18 I19 I20 I21].
  cbn [fake l_n2p l_out l_new l_mark l_vis l_deg l_levelPtr l_partPtr l_nodePtr l_parts] in *. pose proof Hnew as (N1 & N2 & N3 & N4 & N5).
  rewrite I18.
  assert (Hdis : forall v, In v (concat ps) -> ~ In v (concat new)).
  { intros v A B. apply I16 in A. apply N2 in B. destruct B. lia. }
  assert (ND : NoDup (concat (ps ++ new))) by (rewrite concat_app; apply NoDup_app_intro; auto).
  assert (INn : forall v, In v (concat (ps ++ new)) <-> v < n /\ n2l.[v] < b).
  { intros v. rewrite concat_app, in_app_iff, I16, N2. unfold slab. split; [intros [A|A]; lia|].
    intros [A B]. destruct (le_lt_dec c n2l.[v]); [right; lia|left; lia]. }
  assert (FL : forall j, j <= l -> (upd fl (S l) (length ps + length new)).[j] = fl.[j]).
  { intros j Hj. apply aget_upd_ne. lia. }
  assert (FS : (upd fl (S l) (length ps + length new)).[S l] = length ps + length new) by (apply aget_upd_eq; lia).
  assert (Hle : forall j, j < l -> fl.[S j] <= length ps).
  { intros j Hj. rewrite <- I18. apply (mono_le (aget fl) l); try lia. intros i Hi. apply I19. auto. }
  constructor; cbn [fake l_n2p l_out l_new l_mark l_vis l_deg l_levelPtr l_partPtr l_nodePtr l_parts]; auto.
  - now rewrite map_length, seq_length.
  - now rewrite map_length, seq_length.
  - now rewrite upd_length.
  - intros v Hv _. now rewrite aget_repeat.
  - intros v Hv. now rewrite aget_tab.
  - intros v Hv. now rewrite aget_tab.
  - rewrite app_length. auto.
  - rewrite FL by lia. auto.
  - rewrite app_length. auto.
  - intros j Hj. destruct (Nat.eq_dec j l) as [->|].
    + rewrite FS, FL by lia. rewrite I18. lia.
    + rewrite !FL by lia. apply I19. lia.
  - intros j i v Hj Hi Hv. destruct (Nat.eq_dec j l) as [->|].
    + rewrite FS, FL in Hi by lia. rewrite I18 in Hi. rewrite aget_app2 in Hv by lia. rewrite Cl, Cb.
      apply N2. apply in_concat. exists new.[i - length ps]. split; auto. apply aget_In. lia.
    + rewrite !FL in Hi by lia. specialize (Hle j ltac:(lia)). rewrite aget_app1 in Hv by lia. apply (I20 j i v); auto. lia.
  - intros j i pre v post u Hj Hi Ep Su He. destruct (Nat.eq_dec j l) as [->|].
    + rewrite FS, FL in Hi by lia. rewrite I18 in Hi. rewrite aget_app2 in Ep by lia. rewrite Cl, Cb in Su.
      eapply (N3 new.[i - length ps]); eauto. apply aget_In. lia.
    + rewrite !FL in Hi by lia. specialize (Hle j ltac:(lia)). rewrite aget_app1 in Ep by lia. eapply (I21 j i); eauto. lia.
Qed.
End Threads.

Theorem lbc_par_wp junk n Lp Li innerParts md dr nodeCost (Q : nat * (list nat * list nat * list nat) -> Prop) :
  length junk = n ->
  wf_csc n Lp Li -> one_diag n Lp Li -> 0 < n -> ~ has_cycle (edge n Lp Li) -> ~ visits_all n (edge n Lp Li) ->
  innerParts <> 0%Z -> (1 <= md)%Z -> (1 <= dr)%Z -> n <= length nodeCost ->
  (forall k flp fpp fnp, 1 <= k < n -> length flp = n + 1 -> length fpp = n -> length fnp = n ->
     valid_schedule n (edge n Lp Li) k flp fpp fnp ->
     (forall l, l < k -> flp.[S l] - flp.[l] <= inner_bound innerParts) ->
     flp.[k] - flp.[k - 1] <= 1 -> Q (k, (flp, fpp, fnp))) ->
  wp (get_coarse_Level_set_DAG_CSC03_parallel zero add ltb int_max sortp racy dist junk n Lp Li innerParts md dr nodeCost true) Q.
Proof.
  intros Hjunk W D1 Hn Hcy Hva Hip Hmd Hdr Hnc HQ. unfold get_coarse_Level_set_DAG_CSC03_parallel, build_levelSet_CSC_alloc.
  destruct (inplace_total n Lp Li (repeat 0 (n + 1)) (repeat 0 n) W D1) as (lv & lp & ls & n2 & Ei & Hl).
  { rewrite repeat_length. lia. } { rewrite repeat_length. lia. } { rewrite aget_repeat by lia. auto. }
  pose proof (inplace_lens n Lp Li (repeat 0 (n + 1)) (repeat 0 n) _ Ei) as HL. cbv beta iota in HL. rewrite !repeat_length in HL.
  pose proof (inplace_tail n Lp Li (repeat 0 (n + 1)) (repeat 0 n) _ Ei) as HT. cbv beta iota in HT.
  destruct HL as [HL1 HL2]. rewrite Ei. cbn [bind].
  destruct Hl as [(_ & _ & [C|C])|(Hlv & X & _)]; [contradiction|contradiction|].
  replace (lv <? 0)%Z with false by lia. set (levelNo := Z.to_nat lv) in *.
  pose proof X as (XP & XN & _ & XC & _). specialize (XC Hn). destruct XC as [XC _].
  assert (XN' : levelNo < n) by lia. clear XN.
  assert (Htail : lp.[S levelNo] = 0) by (rewrite HT by lia; apply aget_repeat; lia).
  wp1. apply lbc_n2l_wp; auto; try lia. intros n2l N1 N2.
  pose proof (levels_lev_ok n Lp Li levelNo lp ls n2 n2l W X ltac:(lia) ltac:(lia) N1 N2) as LO.
  assert (Hne : forall l, l < levelNo -> lp.[l] < lp.[S l]).
  { intros l Hl. destruct (levels_nonempty _ _ _ _ _ _ _ l W X Hn Hl) as (v & _ & i & Hi & _). lia. }
  wp1. apply height_wp; auto; try lia; [rewrite repeat_length; lia|].
  intros k sizes p2l last P1 P2 P3 P4 P5 P6 P7 P8 P9 P10 P11 P12 P13 P14. rewrite repeat_length in P1. cbv iota.
  assert (Plast : 0 < last).
  { destruct last as [|m]; [|lia]. exfalso. assert (H : forall i, i <= levelNo -> lp.[i] = i).
    { destruct XP as (E0 & _). induction i as [|i IH]; intros Hi; auto. rewrite P10 by lia. rewrite IH by lia. auto. }
    destruct XP as (_ & _ & E & _). rewrite H in E by lia. lia. }
  specialize (P11 Plast).
  assert (Hw : lp.[last - 1] + 2 <= lp.[last]).
  { pose proof (Hne (last - 1) ltac:(lia)) as H. replace (S (last - 1)) with last in H by lia. lia. }
  assert (Hpos : forall l, l < k -> 1 <= sizes.[l] <= inner_bound innerParts).
  { intros l Hl. rewrite P14 by auto. pose proof (inner_bound_pos innerParts). destruct (l =? k - 1); [lia|]. cbv zeta.
    apply inner_size_bounds. auto. }
  assert (Hend : forall c, c < k -> p2l.[S c] <= S levelNo).
  { intros c Hc. destruct (Nat.eq_dec (S c) k) as [->|]; [lia|]. specialize (P6 (S c) ltac:(lia)). lia. }
  set (mn := fun c => lp.[Nat.min c levelNo]).
  assert (Hmn : forall a b, a <= b -> mn a <= mn b).
  { intros a b Hab. apply (lo_mono n Lp Li levelNo lp ls n2l LO); lia. }
  assert (Hmnn : forall a, mn a <= n) by (intros a; apply (lo_le n Lp Li levelNo lp ls n2l LO); lia).
  (* the slab with the last wide level gets fewer parts than nodes *)
  assert (Hwide : forall l, l < k -> p2l.[l] < last -> last <= p2l.[S l] -> sizes.[l] < mn p2l.[S l] - mn p2l.[l]).
  { intros l Hl A B.
    assert (Hq : mn p2l.[l] + 2 <= mn p2l.[S l]).
    { pose proof (Hmn p2l.[l] (last - 1) ltac:(lia)). pose proof (Hmn last p2l.[S l] B).
      unfold mn in *. rewrite (Nat.min_l last) in * by lia. rewrite (Nat.min_l (last - 1)) in * by lia. lia. }
    rewrite P14 by auto. destruct (Nat.eqb_spec l (k - 1)) as [->|Hlk]; [lia|]. cbv zeta.
    assert (k = 2).
    { destruct (Nat.eq_dec k 2) as [|]; auto. exfalso. pose proof (P12 (k - 1) ltac:(lia)).
      assert (p2l.[S l] <= p2l.[k - 1]); [|lia]. apply (mono_le (aget p2l) k); try lia. intros i Hi. specialize (P5 i Hi). lia. }
    assert (l = 0) by lia. subst k l. simpl Nat.eqb. cbv iota.
    pose proof (P6 1 ltac:(lia)) as H1. pose proof (P5 0 ltac:(lia)) as H0. rewrite P4 in *.
    pose proof (Hmn 0 (p2l.[1] - 1) ltac:(lia)) as H2. unfold mn in *. rewrite !Nat.min_l in * by lia.
    pose proof (Hne (p2l.[1] - 1) ltac:(lia)) as H3. replace (S (p2l.[1] - 1)) with p2l.[1] in H3 by lia.
    destruct (inner_size_bounds ((lp.[p2l.[1]] - lp.[p2l.[1] - 1]) / 2) (inner_bound innerParts) (inner_bound_pos innerParts)) as [_ [H4|H4]]; [|lia].
    pose proof (Nat.div_lt (lp.[p2l.[1]] - lp.[p2l.[1] - 1]) 2 ltac:(lia) ltac:(lia)). lia. }
  wp1. wp1; [rewrite repeat_length; lia|].
  assert (Hinc : forall l, l < k -> p2l.[l] < p2l.[S l]) by auto.
  wp1. eapply wp_mono; [eapply split_wp with (nodeCost := nodeCost) (junk := junk) (levelNo := levelNo) (sizes := sizes); eauto; try lia; intros l Hl; apply Hpos; auto|].
  intros [large small] (S1 & S2 & S3). cbv beta iota.
  match goal with |- wp (bind ?m1 (fun merged => bind (foreach ?ds ?f merged) ?h)) _ => 
    assert (AS : wp (bind m1 (fun merged => foreach ds f merged)) (fun m => length m = k /\ forall l, l < k -> slab_parts n Lp Li lp n2l p2l.[l] p2l.[S l] sizes.[l] (aget (A := list (list nat)) m l))) end.
  { eapply all_slabs_wp; eauto; try lia.
    intros l Hl. apply Hpos. auto. }
  apply wp_ok in AS. destruct AS as (merged & EA & M1 & M2). apply bind_inv in EA. destruct EA as (m1 & EA1 & EA2).
  rewrite EA1. cbn [bind]. rewrite EA2. cbn [bind].
  wp1. unfold emit_slabs.
  apply (wp_for (fun l '(fl, pp, np, cur) => exists ps, cur = length ps /\ st_ok n Lp Li n2l p2l.[l] l (aget p2l) sizes ps (fake n Lp Li n2l p2l.[l] fl pp np (length ps)) /\ length ps <= mn p2l.[l] /\
     (last <= p2l.[l] -> length ps < mn p2l.[l]))).
  - lia.
  - exists []. rewrite P4. split; [auto|]. split; [|split; [simpl; lia|lia]].
    constructor; cbn [fake l_n2p l_out l_new l_mark l_vis l_deg l_levelPtr l_partPtr l_nodePtr l_parts]; rewrite ?upd_length, ?repeat_length, ?map_length, ?seq_length; auto; try (intros; lia).
    + intros v Hv _. now rewrite aget_repeat.
    + intros v Hv. now rewrite aget_tab.
    + intros v Hv. now rewrite aget_tab.
    + split; [|simpl; intros; lia]. intros i Hi. simpl in Hi. replace i with 0 by lia. now rewrite aget_repeat.
    + constructor.
    + intros v. simpl. lia.
    + apply aget_upd_eq. rewrite repeat_length. lia.
    + apply aget_upd_eq. rewrite repeat_length. lia.
  - intros l [[[fl pp] np] cur] Hl (ps & -> & I & B1 & B2). set (new := aget (A := list (list nat)) merged l).
    assert (Hnew : slab_parts n Lp Li lp n2l p2l.[l] p2l.[S l] sizes.[l] new) by (apply M2; lia).
    assert (Hbd : length ps + length new <= mn p2l.[S l] /\ (last <= p2l.[S l] -> length ps + length new < mn p2l.[S l])).
    { pose proof Hnew as (_ & _ & _ & Q1 & Q2). pose proof (P6 l ltac:(lia)) as H1. pose proof (P5 l ltac:(lia)) as H2.
      pose proof (Hmn (S p2l.[l]) p2l.[S l] ltac:(lia)) as H3.
      assert (H4 : mn p2l.[l] = lp.[p2l.[l]]) by (unfold mn; f_equal; lia).
      assert (H5 : mn (S p2l.[l]) = lp.[S p2l.[l]]) by (unfold mn; f_equal; lia).
      pose proof (Hne p2l.[l] H1). split; [lia|]. intros H6. destruct (le_lt_dec last p2l.[l]) as [A|A]; [specialize (B2 A); lia|].
      specialize (Hwide l ltac:(lia) A H6). lia. }
    assert (Hps : length ps + length new < n).
    { destruct Hbd as [E1 E2]. destruct (le_lt_dec last p2l.[S l]) as [A|A].
      - specialize (E2 A). specialize (Hmnn p2l.[S l]). lia.
      - pose proof (Hmn p2l.[S l] (last - 1) ltac:(lia)) as H. specialize (Hmnn last). unfold mn in *.
        rewrite (Nat.min_l last) in * by lia. rewrite (Nat.min_l (last - 1)) in * by lia. lia. }
    pose proof I as [].
    cbn [fake l_n2p l_out l_new l_mark l_vis l_deg l_levelPtr l_partPtr l_nodePtr l_parts] in *.
    wp1. wp1; [lia|]. fold new. wp1. wp1; [lia|]. wp1. wp1; [lia|]. wp1.
    eapply emit_slab_wp with (levelNo := levelNo) (junk := junk) (lp := lp) (k := k) (sizes := sizes) (p2l := p2l); eauto; try lia; try (intros j Hj; apply Hpos; auto; fail).
    { rewrite so_np. apply NoDup_bounded_length.
      - destruct Hnew as (A & B & _). rewrite concat_app. apply NoDup_app_intro; auto.
        intros v C D. apply so_in in C. apply B in D. destruct D. lia.
      - intros v Hv. rewrite concat_app in Hv. apply in_app_iff in Hv. destruct Hv as [Hv|Hv]; [now apply so_in|]. apply Hnew in Hv. apply Hv. }
    { intros v Hv. apply Hnew in Hv. apply Hv. }
    intros pp' np' E1 E2 E3. cbv iota. wp1. exists (ps ++ new). rewrite app_length. split; auto. split; [|auto].
    eapply out_step with (nodeCost := nodeCost) (levelNo := levelNo) (junk := junk) (k := k); eauto; try lia; try (intros j Hj; apply Hpos; auto; fail). apply P5. lia.
  - intros [[[fl pp] np] cur] (ps & _ & I & B1 & B2). cbv iota. assert (Hk : levelNo <= p2l.[k]) by lia.
    assert (Hps : length ps < n) by (specialize (B2 ltac:(lia)); specialize (Hmnn p2l.[k]); lia).
    destruct (Nat.eqb_spec k 0) as [|_]; [lia|]. wp1. pose proof I as I'. destruct I' as [].
    cbn [fake l_n2p l_out l_new l_mark l_vis l_deg l_levelPtr l_partPtr l_nodePtr l_parts] in *.
    apply HQ; auto; try lia.
    + pose proof (final_schedule add ltb int_max nodeCost n Lp Li Hnc levelNo lp ls n2l LO Hne _ _ _ _ _ _ I ltac:(lia) ltac:(lia) Hps) as F.
      apply F. intros j Hj. specialize (P5 j Hj). lia.
    + intros l Hl. specialize (so_flm l Hl). specialize (Hpos l Hl). lia.
    + specialize (so_flm (k - 1) ltac:(lia)). replace (S (k - 1)) with k in so_flm by lia. rewrite P14 in so_flm by lia.
      rewrite Nat.eqb_refl in so_flm. lia.
Qed.

End Par.
