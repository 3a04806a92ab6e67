(** Proofs about the LBC driver: output arrays, one slab, all slabs. *)
From Verif Require Import Base Lib Lib2 Spec M_LevelSet L_LevelSet L_LevelSet2 M_LBC L_LBC L_LBC2 L_LBC3 L_LBC4.
From Coq Require Import ZifyBool ZifyNat.

(** * Lists of parts *)

Lemma concat_split {A} (ll : list (list A)) pre v post : concat ll = pre ++ v :: post ->
  exists l1 p1 p2 l2, ll = l1 ++ (p1 ++ v :: p2) :: l2 /\ pre = concat l1 ++ p1.
Proof.
  revert pre. induction ll as [|h t IH]; intros pre E; simpl in E.
  - destruct pre; discriminate.
  - destruct (le_lt_dec (length h) (length pre)) as [L|L].
    + assert (Ep : pre = h ++ skipn (length h) pre).
      { apply (f_equal (firstn (length h))) in E. rewrite firstn_app, Nat.sub_diag, firstn_all, firstn_app in E. simpl in E.
        rewrite app_nil_r in E. replace (length h - length pre) with 0 in E by lia. simpl in E. rewrite app_nil_r in E.
        rewrite E at 1. now rewrite firstn_skipn. }
      rewrite Ep in E. rewrite <- app_assoc in E. apply app_inv_head in E. apply IH in E.
      destruct E as (l1 & p1 & p2 & l2 & -> & E). exists (h :: l1), p1, p2, l2. split; auto. simpl. rewrite <- app_assoc, <- E. auto.
    + assert (Ep : h = pre ++ skipn (length pre) h).
      { apply (f_equal (firstn (length pre))) in E. rewrite !firstn_app, Nat.sub_diag, firstn_all in E. simpl in E.
        rewrite app_nil_r in E. replace (length pre - length h) with 0 in E by lia. simpl in E. rewrite app_nil_r in E.
        rewrite <- E at 1. now rewrite firstn_skipn. }
      rewrite Ep in E. rewrite <- app_assoc in E. apply app_inv_head in E.
      destruct (skipn (length pre) h) as [|x r] eqn:Es.
      { exfalso. rewrite app_nil_r in Ep. subst h. lia. }
      simpl in E. inversion E; subst. exists [], pre, r, t. split; auto.
Qed.

Lemma NoDup_concat {A} (ll : list (list A)) : (forall l, In l ll -> NoDup l) ->
  (forall i j x, i < j -> j < length ll -> In x (aget (A := list A) ll i) -> In x (aget (A := list A) ll j) -> False) -> NoDup (concat ll).
Proof.
  induction ll as [|h t IH]; intros H1 H2; simpl; [constructor|].
  apply NoDup_app_intro.
  - apply H1. now left.
  - apply IH; [intros l Hl; apply H1; now right|]. intros i j x Hij Hj A1 A2. apply (H2 (S i) (S j) x); simpl; auto; lia.
  - intros x Hx Hc. apply in_concat in Hc. destruct Hc as (l & Hl & Hxl). apply In_aget in Hl. destruct Hl as (i & Hi & Ei).
    apply (H2 0 (S i) x); simpl; auto; try lia. rewrite aget_cons_S, Ei. auto.
Qed.

Lemma map_perm_concat {A} (ll : list (list A)) asg : Permutation (concat asg) (seq 0 (length ll)) ->
  Permutation (concat (map (fun l => concat (map (aget ll) l)) asg)) (concat ll).
Proof.
  intros HP. assert (E : concat (map (fun l => concat (map (aget ll) l)) asg) = concat (map (aget ll) (concat asg))).
  { clear HP. induction asg as [|h t IH]; simpl; auto. rewrite IH. now rewrite map_app, concat_app. }
  rewrite E. rewrite <- (map_aget_seq ll) at 2. rewrite <- !flat_map_concat_map. now apply Permutation_flat_map.
Qed.

(** the arrays hold the parts *)
Definition rep (ps : list (list nat)) (pp np : list nat) : Prop :=
  (forall i, i <= length ps -> pp.[i] = length (concat (firstn i ps))) /\
  (forall k, k < length (concat ps) -> np.[k] = (concat ps).[k]).

Lemma emit_parts_wp n parts n2p pp np ps (Q : list (option nat) * list nat * list nat * nat -> Prop) :
  rep ps pp np -> length n2p = n -> length ps + length parts < length pp ->
  length (concat (ps ++ parts)) <= length np -> (forall v, In v (concat parts) -> v < n) ->
  (forall n2p' pp' np', length n2p' = n -> length pp' = length pp -> length np' = length np ->
     rep (ps ++ parts) pp' np' -> Q (n2p', pp', np', length ps + length parts)) ->
  wp (emit_parts parts n2p pp np (length ps)) Q.
Proof.
  intros HR H1 H2 H3 H4 HQ. unfold emit_parts.
  apply (wp_foreach (fun pre '(n2p', pp', np', cur) => length n2p' = n /\ length pp' = length pp /\ length np' = length np /\
     rep (ps ++ pre) pp' np' /\ cur = length ps + length pre)).
  - splits; auto. now rewrite app_nil_r.
  - intros pre p post [[[n2p' pp'] np'] cur] E (I1 & I2 & I3 & (R1 & R2) & ->).
    assert (Hpre : length pre + 1 <= length parts) by (rewrite E, app_length; simpl; lia).
    assert (Hsz : length (concat (ps ++ pre)) + length p <= length np).
    { rewrite E in H3. rewrite !concat_app in H3. simpl in H3. rewrite !app_length in H3. rewrite concat_app, app_length. lia. }
    assert (Hb : pp'.[length ps + length pre] = length (concat (ps ++ pre))).
    { rewrite R1 by (rewrite app_length; lia). rewrite firstn_all2; auto. rewrite app_length. lia. }
    wp1. wp1; [lia|]. rewrite Hb. set (B := length (concat (ps ++ pre))) in *. wp1.
    apply (wp_foreach (fun q '(n2p1, np1, k) => length n2p1 = n /\ length np1 = length np /\ k = length q /\
       (forall i, i < B -> np1.[i] = (concat (ps ++ pre)).[i]) /\ (forall i, i < k -> np1.[B + i] = q.[i]))).
    + splits; auto. intros i Hi. simpl in Hi. lia.
    + intros q v q2 [[n2p1 np1] k] Ep (J1 & J2 & -> & J3 & J4).
      assert (Hq : length q < length p) by (rewrite Ep, app_length; simpl; lia).
      assert (Hv : v < n).
      { apply H4. rewrite E, concat_app. apply in_app_iff. right. simpl. apply in_app_iff. left. rewrite Ep. apply in_app_iff. right. now left. }
      wp1. wp1; [lia|]. wp1. wp1; [lia|]. wp1. rewrite !upd_length. splits; auto.
      * rewrite app_length. simpl. lia.
      * intros i Hi. rewrite aget_upd_ne by lia. auto.
      * intros i Hi. rewrite aget_upd by lia. destruct (Nat.eqb_spec (B + i) (B + length q)) as [Ei|Ei].
        -- replace i with (length q) by lia. now rewrite aget_app_last.
        -- rewrite aget_app1 by lia. apply J4. lia.
    + intros [[n2p1 np1] k] (J1 & J2 & -> & J3 & J4). wp1. wp1; [lia|]. wp1.
      splits; auto; [now rewrite upd_length| |rewrite app_length; simpl; lia].
      assert (Ec : concat (ps ++ pre ++ [p]) = concat (ps ++ pre) ++ p).
      { rewrite app_assoc, concat_app. simpl. now rewrite app_nil_r. }
      split.
      * intros i Hi. rewrite !app_length in Hi. simpl in Hi. rewrite aget_upd by lia.
        destruct (Nat.eqb_spec i (S (length ps + length pre))) as [->|Hne].
        -- rewrite firstn_all2 by (rewrite !app_length; simpl; lia). rewrite Ec, app_length. auto.
        -- rewrite R1 by (rewrite app_length; lia). rewrite app_assoc. rewrite (firstn_app i (ps ++ pre)).
           replace (i - length (ps ++ pre)) with 0 by (rewrite app_length; lia). now rewrite app_nil_r.
      * rewrite Ec. intros k Hk. rewrite app_length in Hk. fold B in Hk. destruct (le_lt_dec B k) as [L|L].
        -- rewrite aget_app2 by (fold B; lia). fold B. rewrite <- J4 by lia. f_equal. lia.
        -- rewrite aget_app1 by (fold B; lia). auto.
  - intros [[[n2p' pp'] np'] cur] (I1 & I2 & I3 & R & ->). apply HQ; auto.
Qed.

(** * The driver *)
Section Driver.
Context {T : Type} `{DT : Dflt T}.
Variables (zero : T) (add : T -> T -> T) (ltb : T -> T -> bool) (int_max : T).
Variable sortp : list (T * list nat) -> list (T * list nat).
Hypothesis sort_perm : forall l, Permutation (sortp l) l.
Variable nodeCost : list T.
Variables (n : nat) (Lp Li : list nat).
Hypothesis W : wf_csc n Lp Li.
Hypothesis D1 : one_diag n Lp Li.
Hypothesis Hcost : n <= length nodeCost.
Variables (levelNo : nat) (lp ls n2l : list nat).
Hypothesis LO : lev_ok n Lp Li levelNo lp ls n2l.
Hypothesis Hne : forall l, l < levelNo -> lp.[l] < lp.[S l].
Variable innerParts : Z.
Hypothesis Hip : innerParts <> 0%Z.

(** parts of the slab [a,b): every node once, dependences inside a part and in order *)
Definition slab_parts (a b bins : nat) (ps : list (list nat)) : Prop :=
  NoDup (concat ps) /\ (forall v, In v (concat ps) <-> slab n n2l a b v) /\
  (forall p pre v post, In p ps -> p = pre ++ v :: post -> forall u, slab n n2l a b u -> edge n Lp Li u v -> In u pre) /\
  length ps <= bins /\ length ps <= lp.[S a] - lp.[a].

Lemma pack_wp a b bins cc n2p lists oc nc (Q : list (list nat) * list T -> Prop) :
  1 <= bins -> cc <= lp.[S a] - lp.[a] -> lp.[S a] <= n -> length lists = cc -> length oc = n -> length nc = n ->
  (forall v, slab n n2l a b v -> exists c, n2p.[v] = Some c /\ c < cc) ->
  (forall c, c < cc -> NoDup lists.[c]) ->
  (forall c v, c < cc -> (In v lists.[c] <-> slab n n2l a b v /\ aget n2p v = Some c)) ->
  (forall c pre v post, c < cc -> lists.[c] = pre ++ v :: post -> forall u, slab n n2l a b u -> edge n Lp Li u v -> In u pre) ->
  (forall ps nc', length nc' = n -> slab_parts a b bins ps -> Q (ps, nc')) ->
  wp (if bins <? length lists then worst_fit_bin_pack add ltb int_max sortp lists oc (repeat [] bins) nc bins else Ok (lists, nc)) Q.
Proof.
  intros H1 H2 Hn H3 H4 H5 H6 H7 H8 H9 HQ.
  assert (ND : NoDup (concat lists)).
  { apply NoDup_concat.
    - intros l Hl. apply In_aget in Hl. destruct Hl as (i & Hi & <-). apply H7. lia.
    - intros i j x Hij Hj A B. apply H8 in A; [|lia]. apply H8 in B; [|lia]. destruct A as [_ A], B as [_ B]. congruence || (assert (Some i = Some j) by congruence; inversion H; lia). }
  assert (IN : forall v, In v (concat lists) <-> slab n n2l a b v).
  { intros v. rewrite in_concat. split.
    - intros (l & Hl & Hv). apply In_aget in Hl. destruct Hl as (i & Hi & <-). apply H8 in Hv; [|lia]. tauto.
    - intros Sv. destruct (H6 v Sv) as (c & Ec & Hc). exists lists.[c]. split; [apply aget_In; lia|]. apply H8; auto. }
  destruct (Nat.ltb_spec bins (length lists)) as [L|L].
  - apply (bin_pack_wp add ltb int_max sortp sort_perm lists oc (repeat [] bins) nc bins (fun _ => True)); auto; try lia.
    + rewrite repeat_length. lia.
    + intros oc' c E _ _ _. eapply wp_mono; [apply (find_min_lt add ltb int_max oc' bins (fun _ => True)); auto; lia|]. auto.
    + intros mg nc' asg (P1 & P2 & P3 & P4 & _) Pp _. apply HQ; [lia|]. rewrite repeat_length in P1.
      assert (Em : mg = map (fun l => concat (map (aget lists) l)) asg).
      { apply list_ext; [rewrite map_length; lia|]. intros i Hi. rewrite P4 by lia. rewrite aget_repeat by lia.
        rewrite (aget_map (fun l => concat (map (aget lists) l))) by lia. auto. }
      assert (PM : Permutation (concat mg) (concat lists)) by (rewrite Em; now apply map_perm_concat).
      split; [eapply Permutation_NoDup; [symmetry; exact PM|auto]|]. splits; try lia.
      * intros v. rewrite <- IN. split; apply Permutation_in; [auto|now symmetry].
      * intros p pre v post Hp E u Su He. rewrite Em in Hp. apply in_map_iff in Hp. destruct Hp as (l & El & Hl).
        rewrite E in El. apply concat_split in El. destruct El as (l1 & p1 & p2 & l2 & E1 & ->).
        apply in_app_iff. right.
        assert (Hin : In (p1 ++ v :: p2) (map (aget lists) l)) by (rewrite E1; apply in_app_iff; right; now left).
        apply in_map_iff in Hin. destruct Hin as (c & Ec & Hc).
        assert (Hcc : c < cc).
        { assert (In c (seq 0 (length lists))) by (rewrite <- Pp; apply in_concat; eauto). rewrite in_seq in H. lia. }
        eapply (H9 c); eauto.
  - wp1. apply HQ; auto. split; [auto|]. splits; auto; try lia.
    intros p pre v post Hp E. apply In_aget in Hp. destruct Hp as (i & Hi & Ei). rewrite <- Ei in E. eapply (H9 i); eauto. lia.
Qed.

(** the state between slabs; [c] is the next level *)
Record st_ok (c l : nat) (cuts : nat -> nat) (sizes : list nat) (ps : list (list nat)) (s : @lstate T) : Prop := {
  so_n2p : length (l_n2p s) = n; so_out : length (l_out s) = n; so_new : length (l_new s) = n;
  so_mark : length (l_mark s) = n; so_vis : length (l_vis s) = n; so_deg : length (l_deg s) = n;
  so_fl : length (l_levelPtr s) = n + 1; so_pp : length (l_partPtr s) = n; so_np : length (l_nodePtr s) = n;
  so_m : forall v, v < n -> c <= n2l.[v] -> (l_mark s).[v] = 0%Z;
  so_v : forall v, v < n -> (l_vis s).[v] = (n2l.[v] <? c);
  so_d : forall v, v < n -> (l_deg s).[v] = (Z.of_nat (remdeg n Lp Li (fun u => n2l.[u] <? c)%nat v) - Z.of_nat (b2n (n2l.[v] <? c)%nat))%Z;
  so_rep : rep ps (l_partPtr s) (l_nodePtr s);
  so_cur : l_parts s = length ps;
  so_nd : NoDup (concat ps);
  so_in : forall v, In v (concat ps) <-> v < n /\ n2l.[v] < c;
  so_fl0 : (l_levelPtr s).[0] = 0;
  so_fll : (l_levelPtr s).[l] = length ps;
  so_flm : forall j, j < l -> (l_levelPtr s).[j] <= (l_levelPtr s).[S j] <= (l_levelPtr s).[j] + sizes.[j];
  so_lv : forall j i v, j < l -> (l_levelPtr s).[j] <= i < (l_levelPtr s).[S j] -> In v ps.[i] -> slab n n2l (cuts j) (cuts (S j)) v;
  so_ord : forall j i pre v post u, j < l -> (l_levelPtr s).[j] <= i < (l_levelPtr s).[S j] -> ps.[i] = pre ++ v :: post ->
     slab n n2l (cuts j) (cuts (S j)) u -> edge n Lp Li u v -> In u pre }.

Lemma slab_wp c b l sizes p2l ps s (cuts : nat -> nat) :
  l < length sizes -> 1 <= sizes.[l] -> l + 1 < length p2l -> p2l.[l] = c -> p2l.[S l] = b -> cuts l = c -> cuts (S l) = b ->
  c < levelNo -> c < b -> l < n ->
  (forall new, slab_parts c b sizes.[l] new -> length ps + length new < n) ->
  st_ok c l cuts sizes ps s ->
  wp (lbc_slab add ltb int_max sortp n Lp Li lp ls n2l nodeCost levelNo innerParts sizes p2l l s)
     (fun s' => exists new, slab_parts c b sizes.[l] new /\ st_ok b (S l) cuts sizes (ps ++ new) s').
Proof.
  intros Hl Hs Hp Ec Eb Cl Cb Hc Hcb Hln Hbd I. destruct I as [I1 I2 I3 I4 I5 I6 I7 I8 I9 I10 I11 I12 I13 I14 I15 I16 I17 I18 I19 I20 I21].
  pose proof (lo_lp _ _ _ _ _ _ _ LO) as L1. pose proof (lo_le _ _ _ _ _ _ _ LO (S c) ltac:(lia)) as Hn.
  unfold lbc_slab. wp1. wp1; [lia|]. rewrite Ec. wp1. wp1; [lia|]. rewrite Eb.
  wp1. apply (mark_levels_wp n Lp Li levelNo lp ls n2l LO); auto; [lia|]. intros m1 M1 M2.
  wp1. apply (mark_levels_wp n Lp Li levelNo lp ls n2l LO); auto. intros m2 M3 M4.
  wp1. apply (components_wp n Lp Li W levelNo lp ls n2l LO c b Hc Hcb add nodeCost Hcost); auto.
  { intros v (Hv & Hv1). rewrite M4 by auto. replace ((b <=? n2l.[v]) && (n2l.[v] <? levelNo)) with false by lia.
    rewrite M2 by auto. replace ((c - 1 <=? n2l.[v]) && (n2l.[v] <? c)) with false by lia. apply I10; [auto|lia]. }
  { intros v Hv Hv1. rewrite M4 by auto. destruct (lo_in _ _ _ _ _ _ _ LO v Hv) as [Hv2 _].
    now replace ((b <=? n2l.[v]) && (n2l.[v] <? levelNo)) with true by lia. }
  intros n2p oc m3 cc C1 C2 C3 C4 C5 C6 C7. cbv iota.
  wp1. apply (mark_levels_wp n Lp Li levelNo lp ls n2l LO); auto; [lia|]. intros m4 M5 M6.
  wp1. apply (mark_levels_wp n Lp Li levelNo lp ls n2l LO); auto. intros m5 M7 M8.
  wp1. apply (mark_levels_wp n Lp Li levelNo lp ls n2l LO); auto. intros v1 V1 V2.
  assert (V3 : forall v, v < n -> v1.[v] = (b <=? n2l.[v]) || (n2l.[v] <? c)).
  { intros v Hv. rewrite V2 by auto. rewrite I11 by auto. destruct (lo_in _ _ _ _ _ _ _ LO v Hv) as [Hv2 _].
    replace (n2l.[v] <? levelNo) with true by lia. rewrite andb_true_r. destruct (b <=? n2l.[v]); auto. }
  wp1. apply (bfs_wp n Lp Li W D1 levelNo lp ls n2l LO c b Hc Hcb n2p cc C1 C6 C7); auto.
  { intros v Hv Hv1. rewrite V3 by auto. lia. }
  { intros v (Hv & Hv1). rewrite V3 by auto. lia. }
  { intros v Hv. rewrite I12 by auto. assert (E : forall u, u < n -> done_ n2l b v1 u = (n2l.[u] <? c)).
    { intros u Hu. unfold done_. rewrite V3 by auto. lia. }
    rewrite E by auto. rewrite (remdeg_ext n Lp Li (done_ n2l b v1) (fun u => n2l.[u] <? c)); auto. }
  intros deg' v2 lists B1 B2 B3 B4 B5 B6 B7 B8. cbv iota.
  wp1. apply (mark_levels_wp n Lp Li levelNo lp ls n2l LO); auto. intros v3 V4 V5.
  wp1. destruct (Z.eqb_spec innerParts 0) as [E0|_]; [contradiction|]. wp1. wp1. wp1; [lia|].
  wp1. apply (pack_wp c b sizes.[l] cc n2p lists); auto.
  intros new nc' Hnc Hnew. cbv iota. pose proof Hnew as (N1 & N2 & N3 & N4 & N5).
  wp1. wp1; [lia|]. wp1. wp1; [lia|]. rewrite I18.
  assert (Hdis : forall v, In v (concat ps) -> ~ In v (concat new)).
  { intros v A B. apply I16 in A. apply N2 in B. destruct B. lia. }
  assert (ND : NoDup (concat (ps ++ new))) by (rewrite concat_app; apply NoDup_app_intro; auto).
  assert (INn : forall v, In v (concat (ps ++ new)) <-> v < n /\ n2l.[v] < b).
  { intros v. rewrite concat_app, in_app_iff, I16, N2. unfold slab. split; [intros [A|A]; lia|].
    intros [A B]. destruct (le_lt_dec c n2l.[v]); [right; lia|left; lia]. }
  specialize (Hbd new Hnew).
  wp1. rewrite I14. apply (emit_parts_wp n new n2p (l_partPtr s) (l_nodePtr s) ps); auto; try lia.
  { rewrite I9. apply NoDup_bounded_length; auto. intros v Hv. now apply INn. }
  { intros v Hv. apply N2 in Hv. apply Hv. }
  intros n2p' pp' np' P1 P2 P3 P4. cbv iota. wp1. exists new. split; auto.
  assert (FL : forall j, j <= l -> (upd (l_levelPtr s) (S l) (length ps + length new)).[j] = (l_levelPtr s).[j]).
  { intros j Hj. apply aget_upd_ne. lia. }
  assert (FS : (upd (l_levelPtr s) (S l) (length ps + length new)).[S l] = length ps + length new) by (apply aget_upd_eq; lia).
  assert (Hle : forall j, j < l -> (l_levelPtr s).[S j] <= length ps).
  { intros j Hj. rewrite <- I18. apply (mono_le (aget (l_levelPtr s)) l); try lia. intros i Hi. apply I19. auto. }
  constructor; cbn [l_n2p l_out l_new l_mark l_vis l_deg l_levelPtr l_partPtr l_nodePtr l_parts]; auto.
  - now rewrite upd_length.
  - congruence.
  - congruence.
  - intros v Hv Hv1. rewrite M8 by auto. destruct (lo_in _ _ _ _ _ _ _ LO v Hv) as [Hv2 _].
    now replace ((b <=? n2l.[v]) && (n2l.[v] <? levelNo)) with true by lia.
  - intros v Hv. rewrite V5 by auto. destruct (lo_in _ _ _ _ _ _ _ LO v Hv) as [Hv2 _]. rewrite B4 by auto.
    destruct ((b <=? n2l.[v]) && (n2l.[v] <? levelNo)) eqn:E; lia.
  - intros v Hv. rewrite B5 by auto. assert (E : forall u, u < n -> done_ n2l b v2 u = (n2l.[u] <? b)).
    { intros u Hu. unfold done_. rewrite B4 by auto. auto. }
    rewrite E by auto. rewrite (remdeg_ext n Lp Li (done_ n2l b v2) (fun u => n2l.[u] <? b)); auto.
  - rewrite app_length. auto.
  - rewrite FL by lia. auto.
  - rewrite app_length. auto.
  - intros j Hj. destruct (Nat.eq_dec j l) as [->|].
    + rewrite FS, FL by lia. rewrite I18. lia.
    + rewrite !FL by lia. apply I19. lia.
  - intros j i v Hj Hi Hv. destruct (Nat.eq_dec j l) as [->|].
    + rewrite FS, FL in Hi by lia. rewrite I18 in Hi. rewrite aget_app2 in Hv by lia. rewrite Cl, Cb.
      apply N2. apply in_concat. exists new.[i - length ps]. split; auto. apply aget_In. lia.
    + rewrite !FL in Hi by lia. specialize (Hle j ltac:(lia)). rewrite aget_app1 in Hv by lia. apply (I20 j i v); auto. lia.
  - intros j i pre v post u Hj Hi Ep Su He. destruct (Nat.eq_dec j l) as [->|].
    + rewrite FS, FL in Hi by lia. rewrite I18 in Hi. rewrite aget_app2 in Ep by lia. rewrite Cl, Cb in Su.
      eapply (N3 new.[i - length ps]); eauto. apply aget_In. lia.
    + rewrite !FL in Hi by lia. specialize (Hle j ltac:(lia)). rewrite aget_app1 in Ep by lia. eapply (I21 j i); eauto. lia.
Qed.

(** the arrays at the end form a valid schedule *)
Lemma final_schedule c k cuts sizes ps s :
  st_ok c k cuts sizes ps s -> levelNo <= c -> k <= n -> length ps < n ->
  (forall j, j < k -> cuts j <= cuts (S j)) ->
  valid_schedule n (edge n Lp Li) k (l_levelPtr s) (l_partPtr s) (l_nodePtr s).
Proof.
  intros [I1 I2 I3 I4 I5 I6 I7 I8 I9 I10 I11 I12 [R1 R2] I14 I15 I16 I17 I18 I19 I20 I21] Hc Hk Hps Hcuts.
  assert (INn : forall v, In v (concat ps) <-> v < n).
  { intros v. rewrite I16. split; [tauto|]. intros Hv. destruct (lo_in _ _ _ _ _ _ _ LO v Hv) as [Hv2 _]. split; auto. lia. }
  assert (LN : length (concat ps) = n).
  { assert (P : Permutation (concat ps) (seq 0 n)).
    { apply NoDup_Permutation; auto; [apply seq_NoDup|]. intros x. rewrite INn, in_seq. lia. }
    apply Permutation_length in P. now rewrite seq_length in P. }
  assert (PM : forall i, i < length ps -> (l_partPtr s).[S i] = (l_partPtr s).[i] + length ps.[i]).
  { intros i Hi. rewrite !R1 by lia.
    assert (Ef : firstn (S i) ps = firstn i ps ++ [ps.[i]]).
    { clear - Hi. revert i Hi. induction ps as [|h t IH]; intros [|i] Hi; simpl in *; try lia; auto. rewrite aget_cons_S, <- IH by lia. auto. }
    rewrite Ef, concat_app, app_length. simpl. rewrite app_nil_r. auto. }
  assert (PMm : forall i, i < length ps -> (l_partPtr s).[i] <= (l_partPtr s).[S i]) by (intros i Hi; rewrite PM by auto; lia).
  assert (POS : forall p j, p < length ps -> j < length ps.[p] -> (l_nodePtr s).[(l_partPtr s).[p] + j] = ps.[p].[j]).
  { intros p j Hp Hj. pose proof (mono_le (aget (l_partPtr s)) (length ps) PMm (S p) (length ps) ltac:(lia) ltac:(lia)) as Hm.
    rewrite PM in Hm by auto. rewrite (R1 (length ps)) in Hm by lia. rewrite firstn_all in Hm.
    rewrite R2 by lia. rewrite R1 by lia. rewrite <- (firstn_skipn p ps) at 1. rewrite concat_app.
    rewrite aget_app2 by lia. replace (length (concat (firstn p ps)) + j - length (concat (firstn p ps))) with j by lia.
    assert (Es : skipn p ps = ps.[p] :: skipn (S p) ps).
    { clear - Hp. revert p Hp. induction ps as [|h t IH]; intros [|i] Hi; simpl in *; try lia; auto. rewrite IH by lia. now rewrite aget_cons_S. }
    rewrite Es. simpl. now rewrite aget_app1 by auto. }
  assert (FM : forall j, j < k -> (l_levelPtr s).[j] <= (l_levelPtr s).[S j]) by (intros j Hj; now apply I19).
  assert (SC : sched_complete n (l_nodePtr s)).
  { split.
    - intros i Hi. rewrite R2 by lia. apply INn. apply aget_In. lia.
    - intros i j Hi Hj E. rewrite !R2 in E by lia. apply (NoDup_aget (concat ps)); auto; lia. }
  split; [|split; [exact SC|]].
  - unfold sched_wf. rewrite I18. splits; auto; try lia.
    + rewrite R1 by lia. auto.
    + rewrite R1 by lia. now rewrite firstn_all.
  - assert (AT : forall l p i x, l < k -> sched_at (l_levelPtr s) (l_partPtr s) (l_nodePtr s) l p i x ->
       p < length ps /\ i < n /\ i - (l_partPtr s).[p] < length ps.[p] /\ ps.[p].[i - (l_partPtr s).[p]] = x /\ slab n n2l (cuts l) (cuts (S l)) x).
    { intros l p i x Hl (A & B & C). pose proof (mono_le (aget (l_levelPtr s)) k FM (S l) k ltac:(lia) ltac:(lia)) as H.
      rewrite I18 in H. assert (Hp : p < length ps) by lia. pose proof (PM p Hp) as E.
      pose proof (mono_le (aget (l_partPtr s)) (length ps) PMm (S p) (length ps) ltac:(lia) ltac:(lia)) as Hm.
      rewrite (R1 (length ps)) in Hm by lia. rewrite firstn_all in Hm.
      assert (Ex : ps.[p].[i - (l_partPtr s).[p]] = x).
      { rewrite <- POS by lia. rewrite <- C. f_equal. lia. }
      splits; auto; try lia. apply (I20 l p x); auto. rewrite <- Ex. apply aget_In. lia. }
    intros u v lu pu ku lv pv kv He Hlu Hlv Au Av.
    destruct (AT lu pu ku u Hlu Au) as (U1 & U2 & U3 & U4 & U5). destruct (AT lv pv kv v Hlv Av) as (V1 & V2 & V3 & V4 & V5).
    pose proof (lo_edge _ _ _ _ _ _ _ LO u v He) as Hlev.
    destruct (lt_eq_lt_dec lu lv) as [[L|L]|L]; [now left| |].
    + right. split; auto. subst lv.
      assert (Ep : ps.[pv] = firstn (kv - (l_partPtr s).[pv]) ps.[pv] ++ v :: skipn (S (kv - (l_partPtr s).[pv])) ps.[pv]).
      { rewrite <- V4. remember (kv - (l_partPtr s).[pv]) as d eqn:Ed. clear - V3. remember ps.[pv] as l eqn:El. clear El.
        revert d V3. induction l as [|h t IH]; intros [|d] Hd; simpl in *; try lia; auto. rewrite aget_cons_S. f_equal. apply IH. lia. }
      assert (Hu : In u (firstn (kv - (l_partPtr s).[pv]) ps.[pv])).
      { eapply (I21 lu pv); eauto. apply Av. }
      apply In_aget in Hu. destruct Hu as (i & Hi & Ei). rewrite firstn_length in Hi. rewrite aget_firstn in Ei by lia.
      assert (Eku : ku = (l_partPtr s).[pv] + i).
      { apply SC; auto.
        - pose proof (mono_le (aget (l_partPtr s)) (length ps) PMm (S pv) (length ps) ltac:(lia) ltac:(lia)) as Hm.
          rewrite (R1 (length ps)) in Hm by lia. rewrite firstn_all in Hm. rewrite PM in Hm by auto. lia.
        - rewrite POS by lia. rewrite Ei. apply Au. }
      destruct Au as (_ & Bu & _). destruct Av as (_ & Bv & _).
      split; [|lia]. apply (bucket_unique (aget (l_partPtr s)) (length ps) pu pv ku); auto. rewrite PM by auto. lia.
    + exfalso. pose proof (mono_le cuts k Hcuts (S lv) lu ltac:(lia) ltac:(lia)). destruct U5, V5. lia.
Qed.

End Driver.
