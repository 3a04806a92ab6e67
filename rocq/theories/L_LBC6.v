(** The whole LBC driver: levels, slabs, final schedule. *)
From Verif Require Import Base Lib Lib2 Spec M_LevelSet L_LevelSet L_LevelSet2 L_Ungroup M_LBC L_LBC L_LBC2 L_LBC3 L_LBC4 L_LBC5.
From Coq Require Import ZifyBool ZifyNat.

(** * The level sets *)
Lemma inplace_lens n Lp Li lp ls : pc (build_levelSet_CSC_inplace n Lp Li lp ls)
  (fun '(_, (ptr, lset)) => length ptr = length lp /\ length lset = length ls).
Proof.
  unfold build_levelSet_CSC_inplace. apply pc_bind, pc_any. intros deg. apply pc_bind.
  apply (pc_mono _ (fun s => length (l2_ptr s) = length lp /\ length (l2_set s) = length ls)).
  - apply pc_while; [auto|]. intros s [H1 H2]. unfold ls2_round. apply pc_bind.
    apply (pc_mono _ (fun '(_, lset, _) => length lset = length ls)).
    + unfold scan_level2. apply pc_for; [auto|]. intros i [[vis lset] col] HI. apply pc_bind, pc_any. intros d. apply pc_bind, pc_any. intros v.
      destruct ((d =? 1)%Z && negb v); [|now apply pc_ret]. apply pc_bind, pc_any. intros vis'. apply pc_bind, pc_wr. intros l' Hl'. apply pc_ret. congruence.
    + intros [[vis lset] col] HI. destruct (n <=? S (l2_cur s)); [apply pc_ret; auto|].
      apply pc_bind, pc_wr. intros p' Hp'. do 5 (apply pc_bind, pc_any; intros ?). apply pc_ret. cbn [l2_ptr l2_set]. split; congruence.
  - intros s H. apply pc_ret. auto.
Qed.

Lemma chain_last E w v d : chain E w v (S d) -> exists u, chain E w u d /\ E u v.
Proof. intros H. inversion H; subst. eauto. Qed.

Lemma levels_lev_ok n Lp Li levelNo lp ls n2 n2l : wf_csc n Lp Li -> levels_exact n Lp Li levelNo lp ls n2 ->
  levelNo < length lp -> n <= length ls -> length n2l = n ->
  (forall l v, l < levelNo -> in_level lp ls l v -> n2l.[v] = l) -> lev_ok n Lp Li levelNo lp ls n2l.
Proof.
  intros W X H1 H2 H3 H4.
  assert (IN : forall v, v < n -> n2l.[v] < levelNo /\ in_level lp ls n2l.[v] v).
  { intros v Hv. destruct (levels_cover _ _ _ _ _ _ _ v X Hv) as (l & Hl & Hin). rewrite (H4 l v Hl Hin). auto. }
  assert (ED : forall u v, edge n Lp Li u v -> n2l.[u] < n2l.[v]).
  { intros u v He. destruct (edge_bounds n Lp Li W u v He) as [Hu Hv]. destruct (IN u Hu), (IN v Hv).
    eapply (levels_ordered _ _ _ _ _ _ _ W X); eauto. }
  constructor; auto.
  - apply X.
  - intros l i Hl Hi. apply H4; auto. exists i. auto.
  - intros v Hv Hp. destruct (IN v Hv) as [Hl Hin]. destruct (levels_in_level _ _ _ _ _ _ _ _ _ X Hl Hin) as (_ & _ & [w Hw] & Hmax).
    destruct n2l.[v] as [|d] eqn:Ed; [lia|]. apply chain_last in Hw. destruct Hw as (u & Hc & He). exists u. split; auto.
    pose proof (ED u v He) as Hlt. rewrite Ed in Hlt.
    destruct (edge_bounds n Lp Li W u v He) as [Hu _]. destruct (IN u Hu) as [Hlu Hinu].
    destruct (levels_in_level _ _ _ _ _ _ _ _ _ X Hlu Hinu) as (_ & _ & _ & Hmu). specialize (Hmu w d Hc). lia.
Qed.

Lemma lbc_n2l_wp n levelNo lp ls (Q : list nat -> Prop) : levelNo < length lp -> n <= length ls -> level_partition n levelNo lp ls ->
  (forall r, length r = n -> (forall l v, l < levelNo -> in_level lp ls l v -> r.[v] = l) -> Q r) ->
  wp (for_ 0 levelNo (fun i n2l => a <- rd lp i ;; b <- rd lp (S i) ;;
    for_ a b (fun j n2l => v <- rd ls j ;; wr n2l v i) n2l) (repeat 0 n)) Q.
Proof.
  intros H1 H2 H3 HQ. pose proof (node2level_wp n levelNo lp ls [] Q H1 H2 H3 HQ) as H. unfold computingNode2Level in H.
  rewrite Nat2Z.id in H. unfold resize in H. rewrite firstn_nil in H. simpl in H. rewrite Nat.sub_0_r in H. exact H.
Qed.

Lemma lbc_deg_wp n Lp Li (Q : list Z -> Prop) : wf_csc n Lp Li ->
  (forall deg, length deg = n -> (forall v, v < n -> deg.[v] = Z.of_nat (remdeg n Lp Li (fun _ => false) v)) -> Q deg) ->
  wp (for_ 0 n (fun s deg => a <- rd Lp s ;; b <- rd Lp (S s) ;;
    for_ a b (fun r deg => v <- rd Li r ;; d <- rd deg v ;; wr deg v (d + 1)%Z) deg) (repeat 0%Z n)) Q.
Proof.
  intros W HQ. pose proof (init_degree_wp n Lp Li W Q HQ) as H. unfold init_degree in H. destruct W as (W1 & W2 & W3 & _).
  rewrite rd_ok in H by lia. cbn [bind] in H. rewrite <- W2 in H at 1. rewrite <- for_cols in H by auto. exact H.
Qed.

(** * The driver *)
Section Driver.
Context {T : Type} `{DT : Dflt T}.
Variables (zero : T) (add : T -> T -> T) (ltb : T -> T -> bool) (int_max : T).
Variable sortp : list (T * list nat) -> list (T * list nat).
Hypothesis sort_perm : forall l, Permutation (sortp l) l.

Theorem lbc_wp n Lp Li innerParts md dr nodeCost (Q : nat * (list nat * list nat * list nat) -> Prop) :
  wf_csc n Lp Li -> one_diag n Lp Li -> 0 < n -> ~ has_cycle (edge n Lp Li) -> ~ visits_all n (edge n Lp Li) ->
  innerParts <> 0%Z -> (1 <= md)%Z -> (1 <= dr)%Z -> n <= length nodeCost ->
  (forall k flp fpp fnp, 1 <= k < n -> length flp = n + 1 -> length fpp = n -> length fnp = n ->
     valid_schedule n (edge n Lp Li) k flp fpp fnp ->
     (forall l, l < k -> flp.[S l] - flp.[l] <= inner_bound innerParts) ->
     flp.[k] - flp.[k - 1] <= 1 -> Q (k, (flp, fpp, fnp))) ->
  wp (get_coarse_Level_set_DAG_CSC03 zero add ltb int_max sortp n Lp Li innerParts md dr nodeCost) Q.
Proof.
  intros W D1 Hn Hcy Hva Hip Hmd Hdr Hnc HQ. unfold get_coarse_Level_set_DAG_CSC03, build_levelSet_CSC_alloc.
  destruct (inplace_total n Lp Li (repeat 0 (n + 1)) (repeat 0 n) W D1) as (lv & lp & ls & n2 & Ei & Hl).
  { rewrite repeat_length. lia. } { rewrite repeat_length. lia. } { rewrite aget_repeat by lia. auto. }
  pose proof (inplace_lens n Lp Li (repeat 0 (n + 1)) (repeat 0 n) _ Ei) as HL. cbv beta iota in HL. rewrite !repeat_length in HL.
  destruct HL as [HL1 HL2]. rewrite Ei. cbn [bind].
  destruct Hl as [(_ & _ & [C|C])|(Hlv & X & _)]; [contradiction|contradiction|].
  replace (lv <? 0)%Z with false by lia. set (levelNo := Z.to_nat lv) in *.
  pose proof X as (XP & XN & _ & XC & _). specialize (XC Hn). destruct XC as [XC _].
  assert (XN' : levelNo < n) by lia. clear XN.
  wp1. apply lbc_n2l_wp; auto; try lia. intros n2l N1 N2.
  pose proof (levels_lev_ok n Lp Li levelNo lp ls n2 n2l W X ltac:(lia) ltac:(lia) N1 N2) as LO.
  assert (Hne : forall l, l < levelNo -> lp.[l] < lp.[S l]).
  { intros l Hl. destruct (levels_nonempty _ _ _ _ _ _ _ l W X Hn Hl) as (v & _ & i & Hi & _). lia. }
  wp1. apply lbc_deg_wp; auto. intros deg G1 G2.
  wp1. apply height_wp; auto; try lia; [rewrite repeat_length; lia|].
  intros k sizes p2l last P1 P2 P3 P4 P5 P6 P7 P8 P9 P10 P11 P12 P13 P14. rewrite repeat_length in P1. cbv iota.
  assert (Plast : 0 < last).
  { destruct last as [|m]; [|lia]. exfalso. assert (H : forall i, i <= levelNo -> lp.[i] = i).
    { destruct XP as (E0 & _). induction i as [|i IH]; intros Hi; auto. rewrite P10 by lia. rewrite IH by lia. auto. }
    destruct XP as (_ & _ & E & _). rewrite H in E by lia. lia. }
  specialize (P11 Plast).
  assert (Hw : lp.[last - 1] + 2 <= lp.[last]).
  { pose proof (Hne (last - 1) ltac:(lia)) as H. replace (S (last - 1)) with last in H by lia. lia. }
  assert (Hpos : forall l, l < k -> 1 <= sizes.[l] <= inner_bound innerParts).
  { intros l Hl. rewrite P14 by auto. pose proof (inner_bound_pos innerParts). destruct (l =? k - 1); [lia|]. cbv zeta.
    apply inner_size_bounds. auto. }
  assert (Hend : forall c, c < k -> p2l.[S c] <= S levelNo).
  { intros c Hc. destruct (Nat.eq_dec (S c) k) as [->|]; [lia|]. specialize (P6 (S c) ltac:(lia)). lia. }
  set (mn := fun c => lp.[Nat.min c levelNo]).
  assert (Hmn : forall a b, a <= b -> mn a <= mn b).
  { intros a b Hab. apply (lo_mono n Lp Li levelNo lp ls n2l LO); lia. }
  assert (Hmnn : forall a, mn a <= n) by (intros a; apply (lo_le n Lp Li levelNo lp ls n2l LO); lia).
  (* the slab with the last wide level gets fewer parts than nodes *)
  assert (Hwide : forall l, l < k -> p2l.[l] < last -> last <= p2l.[S l] -> sizes.[l] < mn p2l.[S l] - mn p2l.[l]).
  { intros l Hl A B.
    assert (Hq : mn p2l.[l] + 2 <= mn p2l.[S l]).
    { pose proof (Hmn p2l.[l] (last - 1) ltac:(lia)). pose proof (Hmn last p2l.[S l] B).
      unfold mn in *. rewrite (Nat.min_l last) in * by lia. rewrite (Nat.min_l (last - 1)) in * by lia. lia. }
    rewrite P14 by auto. destruct (Nat.eqb_spec l (k - 1)) as [->|Hlk]; [lia|]. cbv zeta.
    assert (k = 2).
    { destruct (Nat.eq_dec k 2) as [|]; auto. exfalso. pose proof (P12 (k - 1) ltac:(lia)).
      assert (p2l.[S l] <= p2l.[k - 1]); [|lia]. apply (mono_le (aget p2l) k); try lia. intros i Hi. specialize (P5 i Hi). lia. }
    assert (l = 0) by lia. subst k l. simpl Nat.eqb. cbv iota.
    pose proof (P6 1 ltac:(lia)) as H1. pose proof (P5 0 ltac:(lia)) as H0. rewrite P4 in *.
    pose proof (Hmn 0 (p2l.[1] - 1) ltac:(lia)) as H2. unfold mn in *. rewrite !Nat.min_l in * by lia.
    pose proof (Hne (p2l.[1] - 1) ltac:(lia)) as H3. replace (S (p2l.[1] - 1)) with p2l.[1] in H3 by lia.
    destruct (inner_size_bounds ((lp.[p2l.[1]] - lp.[p2l.[1] - 1]) / 2) (inner_bound innerParts) (inner_bound_pos innerParts)) as [_ [H4|H4]]; [|lia].
    pose proof (Nat.div_lt (lp.[p2l.[1]] - lp.[p2l.[1] - 1]) 2 ltac:(lia) ltac:(lia)). lia. }
  wp1. wp1; [rewrite repeat_length; lia|]. wp1.
  apply (wp_for (fun l s => exists ps, st_ok n Lp Li n2l p2l.[l] l (aget p2l) sizes ps s /\ length ps <= mn p2l.[l] /\
     (last <= p2l.[l] -> length ps < mn p2l.[l]))).
  - lia.
  - exists []. rewrite P4. split; [|split; [simpl; lia|lia]].
    constructor; cbn [l_n2p l_out l_new l_mark l_vis l_deg l_levelPtr l_partPtr l_nodePtr l_parts]; rewrite ?upd_length, ?repeat_length; auto; try (intros; lia).
    + intros v Hv _. now rewrite aget_repeat.
    + intros v Hv. rewrite aget_repeat by auto. lia.
    + intros v Hv. rewrite G2 by auto.
      change (fun u => n2l.[u] <? 0) with (fun _ : nat => false). change (n2l.[v] <? 0) with false. cbn [b2n]. lia.
    + split; [|simpl; intros; lia]. intros i Hi. simpl in Hi. replace i with 0 by lia. now rewrite aget_repeat.
    + constructor.
    + intros v. simpl. lia.
    + apply aget_upd_eq. rewrite repeat_length. lia.
    + apply aget_upd_eq. rewrite repeat_length. lia.
  - intros l s Hl (ps & I & B1 & B2).
    assert (Hbd : forall new, slab_parts n Lp Li lp n2l p2l.[l] p2l.[S l] sizes.[l] new ->
       length ps + length new <= mn p2l.[S l] /\ (last <= p2l.[S l] -> length ps + length new < mn p2l.[S l])).
    { intros new (_ & _ & _ & S1 & S2). pose proof (P6 l ltac:(lia)) as H1. pose proof (P5 l ltac:(lia)) as H2.
      pose proof (Hmn (S p2l.[l]) p2l.[S l] ltac:(lia)) as H3.
      assert (H4 : mn p2l.[l] = lp.[p2l.[l]]) by (unfold mn; f_equal; lia).
      assert (H5 : mn (S p2l.[l]) = lp.[S p2l.[l]]) by (unfold mn; f_equal; lia).
      pose proof (Hne p2l.[l] H1). split; [lia|]. intros H6. destruct (le_lt_dec last p2l.[l]) as [A|A]; [specialize (B2 A); lia|].
      specialize (Hwide l ltac:(lia) A H6). lia. }
    eapply wp_mono.
    + apply (slab_wp add ltb int_max sortp sort_perm nodeCost n Lp Li W D1 Hnc levelNo lp ls n2l LO Hne innerParts Hip p2l.[l] p2l.[S l] l sizes p2l ps s (aget p2l)); auto; try lia.
      * apply Hpos. lia.
      * apply P6. lia.
      * apply P5. lia.
      * intros new Hnew. destruct (Hbd new Hnew) as [E1 E2]. destruct (le_lt_dec last p2l.[S l]) as [A|A].
        -- specialize (E2 A). specialize (Hmnn p2l.[S l]). lia.
        -- pose proof (Hmn p2l.[S l] (last - 1) ltac:(lia)) as H. specialize (Hmnn last). unfold mn in *.
           rewrite (Nat.min_l last) in * by lia. rewrite (Nat.min_l (last - 1)) in * by lia. lia.
    + intros s' (new & Hnew & I'). exists (ps ++ new). rewrite app_length. split; auto.
  - intros s (ps & I & B1 & B2). assert (Hk : levelNo <= p2l.[k]) by lia.
    assert (Hps : length ps < n) by (specialize (B2 ltac:(lia)); specialize (Hmnn p2l.[k]); lia).
    destruct (Nat.eqb_spec k 0) as [|_]; [lia|]. wp1. pose proof I as I'. destruct I' as [].
    apply HQ; auto; try lia.
    + eapply (final_schedule add ltb int_max nodeCost n Lp Li Hnc levelNo lp ls n2l LO Hne); eauto; try lia.
      intros j Hj. specialize (P5 j Hj). lia.
    + intros l Hl. specialize (so_flm l Hl). specialize (Hpos l Hl). lia.
    + specialize (so_flm (k - 1) ltac:(lia)). replace (S (k - 1)) with k in so_flm by lia. rewrite P14 in so_flm by lia.
      rewrite Nat.eqb_refl in so_flm. lia.
Qed.

(** chains and cycles: the array size is -1 *)
Theorem lbc_throw n Lp Li innerParts md dr nodeCost :
  wf_csc n Lp Li -> one_diag n Lp Li -> 0 < n -> has_cycle (edge n Lp Li) \/ visits_all n (edge n Lp Li) ->
  get_coarse_Level_set_DAG_CSC03 zero add ltb int_max sortp n Lp Li innerParts md dr nodeCost = Err Throw.
Proof.
  intros W D1 Hn HC. unfold get_coarse_Level_set_DAG_CSC03, build_levelSet_CSC_alloc.
  destruct (inplace_total n Lp Li (repeat 0 (n + 1)) (repeat 0 n) W D1) as (lv & lp & ls & n2 & Ei & Hl).
  { rewrite repeat_length. lia. } { rewrite repeat_length. lia. } { rewrite aget_repeat by lia. auto. }
  rewrite Ei. cbn [bind]. destruct Hl as [(-> & _)|(_ & _ & H)]; [auto|tauto].
Qed.

End Driver.
