(** The tree coarsening: one slab and the driver. *)
From Coq Require Import ZifyBool ZifyNat.
From Verif Require Import Base Lib Lib2 Lib3 Spec M_Tree M_LBC M_LBCTree P_Tree L_Post2 P_Post P_TreeH L_LevelSet L_LevelSet2 L_LBC L_LBC2 L_LBC3 L_LBC4 L_LBC5
  L_LBCTree L_LBCTree2 L_LBCTree3 P_Collect L_LBCTree4 L_LBCTree5.

Lemma repeat0 k (x : nat) : x < k -> (repeat 0 k).[x] = 0.
Proof. intros. now rewrite aget_repeat. Qed.

Lemma emit_parts_oo parts : forall n2p pp np cur, oob_or (emit_parts parts n2p pp np cur) (fun _ => parts = [] \/ cur + length parts < length pp).
Proof.
  induction parts as [|p parts IH]; intros n2p pp np cur.
  - simpl. auto.
  - unfold emit_parts. cbn [foreach]. oo1.
    match goal with |- oob_or ?m _ => assert (G : oob_or m (fun '(n2p', pp', np', cur') => cur' = S cur /\ S cur < length pp /\ length pp' = length pp)) end.
    { oo1. oo1. intros _. oo1. eapply oo_mono; [apply oo_foreach|]. { intros v [[x y] z]. repeat (oo1; intros; auto). }
      intros [[x y] z] _. oo1. oo1. intros H. oo1. rewrite upd_length. auto. }
    eapply oo_mono; [exact G|]. intros [[[n2p' pp'] np'] cur'] (-> & H1 & H2).
    eapply oo_mono; [exact (IH n2p' pp' np' (S cur))|]. intros _ [->|H]; right; cbn [length]; lia.
Qed.

Section Slab.
Context {T : Type} {DT : Dflt T}.
Variables (zero : T) (add : T -> T -> T) (ltb : T -> T -> bool) (int_max : T).
Variable sortp : list (T * list nat) -> list (T * list nat).
Hypothesis sort_perm : forall l, Permutation (sortp l) l.
Variable nodeCost : list T.
Variables (n : nat) (tree : list Z).
Hypothesis FO : forest n tree.
Hypothesis CL : n <= length nodeCost.
Notation E := (tree_edge n tree).
Variables (k : nat) (lp ls n2l : list nat).
Hypothesis LR : lev_result n tree (repeat 0 (n + 1)) (repeat 0 n) (repeat 0 n) k lp ls n2l.

Lemma lr_edge u v : E u v -> n2l.[u] < n2l.[v].
Proof.
  intros He. destruct LR as (_ & _ & _ & D & _). pose proof He as (Hu & Hv & _).
  destruct (D u Hu) as [(w & Hc) _], (D v Hv) as [_ Hm]. specialize (Hm w (S n2l.[u])).
  change (S n2l.[u] <= n2l.[v]). apply Hm. econstructor; eauto.
Qed.

(** the parent inside the slab *)
Definition tval (lo hi v : nat) : Z :=
  if (0 <=? tree.[v])%Z && (lo <=? n2l.[Z.to_nat tree.[v]]) && (n2l.[Z.to_nat tree.[v]] <? hi) then tree.[v] else (-1)%Z.

Definition tval2 (lo hi v : nat) : Z := if (lo <=? n2l.[v]) && (n2l.[v] <? hi) then tval lo hi v else (-2)%Z.

Lemma slab_level_wp lo hi i tt (Q : list Z -> Prop) : lo <= i < hi -> i < k -> hi <= S k -> length tt = n ->
  (forall v, v < n -> tt.[v] = tval2 lo hi v \/ i <= n2l.[v]) ->
  (forall v, v < n -> lo <= n2l.[v] < i -> tt.[v] = tval lo hi v) ->
  (forall v, v < n -> i <= n2l.[v] -> tt.[v] = (-2)%Z) ->
  (forall tt', length tt' = n -> (forall v, v < n -> n2l.[v] = i -> tt'.[v] = tval lo hi v) -> (forall v, v < n -> n2l.[v] <> i -> tt'.[v] = tt.[v]) -> Q tt') ->
  wp (for_ lp.[i] lp.[S i] (fun j tt =>
      v <- rd ls j ;;
      par <- rd tree v ;;
      lv <- (if (0 <=? par)%Z then rdZ n2l par else Ok (S k)) ;;
      if (lv <? hi) && (lo <=? lv) then _ <- rd nodeCost v ;; wr tt v par
      else wr tt v (-1)%Z) tt) Q.
Proof.
  intros Hi Hk Hh HT _ H2 H3 HQ. destruct LR as (L1 & L2 & L3 & D & Dk & _ & Kn & LP & _ & LS). destruct FO as (TL & TB & _).
  rewrite repeat_length in *. rewrite !LP by lia.
  apply (wp_for (fun j tt' => length tt' = n /\ (forall v, v < n -> n2l.[v] = i -> cpos n (aget n2l) v < j -> tt'.[v] = tval lo hi v) /\
     (forall v, v < n -> n2l.[v] <> i -> tt'.[v] = tt.[v]))).
  - apply cbase_mono. lia.
  - splits; auto. intros v Hv Ev Hp. pose proof (cpos_lo n (aget n2l) v). rewrite Ev in *. lia.
  - intros j tt' Hj (I1 & I2 & I3). pose proof (cbase_le n (aget n2l) (S i)).
    destruct (cpos_onto n (aget n2l) j ltac:(lia)) as (v & Hv & Ev). assert (Hn : n2l.[v] = i) by (apply cpos_bucket with (N := n); auto; lia).
    wp1. wp1; [lia|]. rewrite <- Ev, LS by auto. wp1. wp1; [lia|]. specialize (TB v Hv).
    assert (G : forall x, tval lo hi v = x -> length (upd tt' v x) = n /\ (forall v0, v0 < n -> n2l.[v0] = i -> cpos n (aget n2l) v0 < S j -> (upd tt' v x).[v0] = tval lo hi v0) /\
       (forall v0, v0 < n -> n2l.[v0] <> i -> (upd tt' v x).[v0] = tt.[v0])).
    { intros x Ex. rewrite upd_length. splits; auto.
      - intros w Hw Hwi Hp. destruct (Nat.eq_dec w v) as [->|]; [rewrite aget_upd_eq by lia; auto|]. rewrite aget_upd_ne by auto. apply I2; auto.
        destruct (Nat.eq_dec (cpos n (aget n2l) w) j) as [Ew|]; [|lia]. exfalso. apply n0. apply (cpos_inj n (aget n2l)); auto. lia.
      - intros w Hw Hwi. rewrite aget_upd_ne; [auto|congruence]. }
    rewrite Ev. destruct (Z.leb_spec 0 tree.[v]) as [P|P].
    + wp1. apply rdZ_wp; [lia|lia|]. destruct (_ && _) eqn:Ec.
      * wp1. wp1; [lia|]. wp1; [lia|]. apply G. unfold tval. replace (0 <=? tree.[v])%Z with true by lia. cbn [andb]. now replace (_ && _) with true by lia.
      * wp1; [lia|]. apply G. unfold tval. replace (0 <=? tree.[v])%Z with true by lia. cbn [andb]. now replace (_ && _) with false by lia.
    + wp1. wp1. replace ((S k <? hi) && _) with false by lia. wp1; [lia|]. apply G. unfold tval. now replace (0 <=? tree.[v])%Z with false by lia.
  - intros tt' (I1 & I2 & I3). apply HQ; auto. intros v Hv Ev. apply I2; auto. pose proof (cpos_hi n (aget n2l) v Hv). now rewrite Ev in *.
Qed.

(** the levels below the last one *)
Lemma slab_tree_init lo hi m (Q : list Z -> Prop) (stray : option nat) : lo <= m -> m <= k -> m <= hi -> hi <= S k ->
  (forall tt, length tt = n -> (forall v, v < n -> tt.[v] = if (lo <=? n2l.[v]) && (n2l.[v] <? m) then tval lo hi v else (-2)%Z) -> Q tt) ->
  wp (for_ lo m (fun i tt =>
    _ <- rd_stray stray (repeat 0 k) i ;;
    a <- rd_stray stray lp i ;; b <- rd_stray stray lp (S i) ;;
    for_ a b (fun j tt =>
      v <- rd ls j ;;
      par <- rd tree v ;;
      lv <- (if (0 <=? par)%Z then rdZ n2l par else Ok (S k)) ;;
      if (lv <? hi) && (lo <=? lv) then _ <- rd nodeCost v ;; wr tt v par
      else wr tt v (-1)%Z) tt) (repeat (-2)%Z n)) Q.
Proof.
  intros H1 H2 H3 H4 HQ. pose proof LR as (L1 & L2 & L3 & D & Dk & _ & Kn & LP & _ & LS). rewrite repeat_length in *.
  apply (wp_for (fun i tt => length tt = n /\ (forall v, v < n -> tt.[v] = if (lo <=? n2l.[v]) && (n2l.[v] <? i) then tval lo hi v else (-2)%Z))).
  - auto.
  - split; [apply repeat_length|]. intros v Hv. rewrite aget_repeat by auto. now replace (_ && _) with false by lia.
  - intros i tt Hi (I1 & I2). unfold rd_stray at 1. rewrite repeat_length. replace (i <? k) with true by lia. wp1. wp1.
    unfold rd_stray. rewrite L1. replace (i <? n + 1) with true by lia. replace (S i <? n + 1) with true by lia. wp1. wp1. wp1. wp1.
    apply slab_level_wp; auto; try lia.
    + intros v Hv. destruct (le_lt_dec i n2l.[v]); auto. left. rewrite I2 by auto. unfold tval2.
      replace (n2l.[v] <? hi) with true by lia. now replace (n2l.[v] <? i) with true by lia.
    + intros v Hv Hl. rewrite I2 by auto. now replace (_ && _) with true by lia.
    + intros v Hv Hl. rewrite I2 by auto. now replace (_ && _) with false by lia.
    + intros tt' J1 J2 J3. split; auto. intros v Hv. destruct (Nat.eq_dec n2l.[v] i) as [Ev|Ev].
      * rewrite J2 by auto. now replace (_ && _) with true by lia.
      * rewrite J3, I2 by auto. now replace (n2l.[v] <? S i) with (n2l.[v] <? i) by lia.
  - intros tt [I1 I2]. apply HQ; auto.
Qed.

(** reads beyond the arrays: harmless values *)
Definition stray_ok (stray : option nat) (hi : nat) : Prop := hi <= k \/ exists g, stray = Some g /\ g <= n.

Lemma slab_tree_wp stray lo hi (Q : list Z -> Prop) : lo <= k -> lo <= hi -> hi <= S k -> stray_ok stray hi ->
  (forall tt, length tt = n -> (forall v, v < n -> tt.[v] = tval2 lo hi v) -> Q tt) ->
  wp (slab_tree stray n tree k lp ls n2l nodeCost lo hi) Q.
Proof.
  intros H1 H2 H3 HS HQ. unfold slab_tree. pose proof LR as (L1 & L2 & L3 & D & Dk & _ & Kn & LP & LP' & LS). rewrite repeat_length in *.
  destruct (le_lt_dec hi k) as [Hk|Hk].
  - apply slab_tree_init; auto.
  - destruct HS as [HS|(g & -> & Hg)]; [lia|]. assert (hi = S k) by lia. subst hi.
    rewrite (for_split _ lo k (S k)) by lia. wp1. apply slab_tree_init; auto. intros tt I1 I2.
    rewrite for_step by lia. unfold rd_stray at 1. rewrite repeat_length. replace (k <? k) with false by lia.
    unfold rd_stray. rewrite L1. replace (k <? n + 1) with true by lia. cbn [bind].
    assert (Ek : lp.[k] = n) by (rewrite LP by lia; apply cbase_all; auto). rewrite Ek.
    assert (exists b, b <= n /\ (if S k <? n + 1 then Ok lp.[S k] else Ok g) = Ok b) as (b & Hb & ->).
    { destruct (Nat.ltb_spec (S k) (n + 1)); [|eauto]. exists lp.[S k]. split; auto. rewrite LP' by lia. rewrite repeat0 by lia. lia. }
    cbn [bind]. rewrite for_nil by lia. cbn [bind]. rewrite for_nil by lia. wp1. apply HQ; auto.
    intros v Hv. rewrite I2 by auto. unfold tval2. specialize (Dk v Hv). now replace (n2l.[v] <? S k) with (n2l.[v] <? k) by lia.
Qed.

(** ** The forest of the slab *)
Section Forest.
Variables (lo hi : nat) (tt : list Z).
Hypothesis TT : length tt = n /\ forall v, v < n -> tt.[v] = tval2 lo hi v.

Lemma tval_cases v : v < n -> (tval lo hi v = (-1)%Z \/ exists p, p < n /\ tree.[v] = Z.of_nat p /\ slab n n2l lo hi p /\ tval lo hi v = Z.of_nat p).
Proof.
  intros Hv. destruct FO as (_ & TB & _). specialize (TB v Hv). unfold tval. destruct (_ && _ && _) eqn:Ec; [|auto]. right.
  exists (Z.to_nat tree.[v]). unfold slab. splits; lia.
Qed.

Lemma tt_slab v : v < n -> (tt.[v] <> (-2)%Z <-> slab n n2l lo hi v).
Proof.
  intros Hv. destruct TT as [_ H]. rewrite H by auto. unfold tval2, slab. destruct (_ && _) eqn:Ec; [|lia].
  destruct (tval_cases v Hv) as [->|(p & _ & _ & _ & ->)]; lia.
Qed.

Lemma tt_edge u v : slab n n2l lo hi u -> slab n n2l lo hi v -> E u v -> tree_edge n tt u v.
Proof.
  intros (Hu & Su) (Hv & Sv) (_ & _ & He). destruct TT as [_ H]. split; [auto|]. split; auto. rewrite H by auto. unfold tval2.
  replace ((lo <=? n2l.[u]) && (n2l.[u] <? hi)) with true by lia. unfold tval. rewrite He, Nat2Z.id.
  replace (0 <=? Z.of_nat v)%Z with true by lia. cbn [andb]. now replace (_ && _) with true by lia.
Qed.

Lemma tt_forest : part_forest n tt.
Proof.
  destruct TT as [TL H]. split; auto. intros v Hv.
  destruct (Z.eq_dec tt.[v] (-2)) as [|N]; auto. right. apply (tt_slab v Hv) in N.
  destruct (dep_exists n tree FO v Hv) as [d Hd]. revert Hv N. induction Hd as [r Hr|u p d Hu Hp Hd IH]; intros Hv N.
  - exists 0. constructor. rewrite H by auto. unfold tval2. destruct N. replace (_ && _) with true by lia. unfold tval. now rewrite Hr.
  - assert (Eu : tt.[u] = tval lo hi u). { rewrite H by auto. unfold tval2. destruct N. now replace (_ && _) with true by lia. }
    destruct (tval_cases u Hv) as [Ec|(q & Hq & Eq & Sq & Ec)].
    + exists 0. constructor. congruence.
    + assert (q = p) by lia. subst q. destruct (IH Hp Sq) as [d' Hd']. exists (S d'). econstructor; eauto. congruence.
Qed.

Lemma tt_parts parts : tree_parts n tt parts -> gparts n E n2l lo hi parts /\ length parts <= length (concat parts).
Proof.
  intros (P1 & P2 & P3 & P4). assert (IN : forall v, In v (concat parts) <-> slab n n2l lo hi v).
  { intros v. rewrite P2. split; [intros [A B]; now apply tt_slab|]. intros S. pose proof S as [A _]. split; auto. now apply tt_slab. }
  split.
  - split; [auto|]. split; auto. intros p pre v post Hp Ep u Su He. apply (P4 p pre v post u Hp Ep).
    apply tt_edge; auto. apply IN. apply in_concat. exists p. split; auto. rewrite Ep. apply in_app_iff. right. now left.
  - assert (NE : forall p, In p parts -> p <> []).
    { intros p Hp ->. destruct (P3 [] Hp) as (R & HR & _ & HI). apply (HI R). split; auto. exists 0. constructor. }
    clear - NE. induction parts as [|h t IH]; [simpl; lia|]. cbn [concat length]. rewrite app_length.
    assert (h <> []) by (apply NE; now left). destruct h; [easy|]. cbn [length]. assert (length t <= length (concat t)); [|lia]. apply IH. intros p Hp. apply NE. now right.
Qed.
End Forest.

Lemma gparts_length a b ps ps' : gparts n E n2l a b ps -> gparts n E n2l a b ps' -> length (concat ps) = length (concat ps').
Proof.
  intros (A1 & A2 & _) (B1 & B2 & _). apply Permutation_length. apply NoDup_Permutation; auto. intros v. now rewrite A2, B2.
Qed.

(** ** One slab *)
Record tst (cap l : nat) (cuts : nat -> nat) (sizes : list nat) (ps : list (list nat)) (s : @tstate T) : Prop := {
  ts_cp : length (t_cp s) = n + 1; ts_cn : length (t_cn s) = n; ts_new : length (t_new s) = n;
  ts_fl : length (t_levelPtr s) = n + 1; ts_pp : length (t_partPtr s) = cap; ts_np : length (t_nodePtr s) = n;
  ts_lt : length ps < cap;
  ts_cur : t_parts s = length ps;
  ts_sum : length ps <= list_sum (firstn l sizes);
  ts_ne : length ps <= length (concat ps);
  ts_g : gst n E n2l (cuts l) l cuts ps (t_levelPtr s) (t_partPtr s) (t_nodePtr s) }.

Lemma tree_slab_wpx (B : Prop) stray cap l cuts sizes p2l ps s :
  l < length sizes -> 1 <= sizes.[l] -> S l < length p2l -> p2l.[l] = cuts l -> p2l.[S l] = cuts (S l) ->
  cuts l <= k -> cuts l < cuts (S l) -> cuts (S l) <= S k -> stray_ok stray (cuts (S l)) -> l < n ->
  (cap <= n -> cap <= list_sum (firstn (S l) sizes) -> B) ->
  tst cap l cuts sizes ps s ->
  wpx B (tree_slab zero add ltb int_max sortp stray n tree k lp ls n2l nodeCost sizes p2l l s)
    (fun s' => exists ps', tst cap (S l) cuts sizes ps' s').
Proof.
  intros Hl Hs Hp Ec Eb H1 H2 H3 HS Hn HB [I1 I2 I3 I4 I5 I6 I0 I7 I8 I9 I10]. unfold tree_slab.
  apply wpx_bindw. wp1; [lia|]. apply wpx_bindw. wp1; [lia|]. apply wpx_bindw. wp1; [lia|]. rewrite Ec, Eb.
  apply wpx_bindw. apply slab_tree_wp; auto; [lia|]. intros tt T1 T2. pose proof (tt_forest _ _ tt (conj T1 T2)) as PF.
  assert (PA : parent_array n tt).
  { split; [lia|]. intros v Hv. rewrite T2 by auto. unfold tval2. destruct (_ && _); [|lia].
    destruct (tval_cases (cuts l) (cuts (S l)) tt (conj T1 T2) v Hv) as [->|(q & Hq & _ & _ & ->)]; lia. }
  apply wpx_bindw. eapply wp_mono; [apply (populate_children_wp n tt PA); rewrite ?repeat_length; [lia|lia|lia|]; intros; now rewrite repeat0|].
  intros [[cp cn] nc] (J1 & J2 & J3 & J4 & J5 & J6). rewrite repeat_length in J3.
  apply wpx_bindw. apply (post_order_spliting_wp add n tt nodeCost cp cn PF CL); auto; try lia.
  { split; [lia|auto]. } { split; [lia|auto]. } { rewrite repeat_length. lia. }
  intros lists oc nc' TP TL2 TO _. rewrite repeat_length in TO. destruct (tt_parts _ _ tt (conj T1 T2) lists TP) as [GP NE].
  apply wpx_bindw. apply (gpack_wp add ltb int_max sortp sort_perm n E n2l (cuts l) (cuts (S l))); auto; try lia.
  intros new nw Hnw GN N1 N2. apply wpx_bindw. wp1; [lia|]. apply wpx_bindw. wp1; [lia|].
  pose proof (gs_fll _ _ _ _ _ _ _ _ _ _ I10) as FLL. rewrite FLL.
  pose proof (gparts_length _ _ _ _ GP GN) as GL.
  assert (SUM : length (ps ++ new) <= list_sum (firstn (S l) sizes)).
  { rewrite app_length. assert (Ef : firstn (S l) sizes = firstn l sizes ++ [sizes.[l]]).
    { clear - Hl. revert l Hl. induction sizes as [|h t IH]; intros [|i] Hi; simpl in *; try lia; auto. rewrite aget_cons_S, <- IH by lia. auto. }
    rewrite Ef, list_sum_app. cbn [list_sum fold_right]. lia. }
  assert (NEW : length (ps ++ new) <= length (concat (ps ++ new))) by (rewrite concat_app, !app_length; lia).
  assert (LC : length (concat (ps ++ new)) <= n).
  { destruct I10 as [_ ND IN _ _ _ _ _]. destruct GN as (G1 & G2 & _). apply NoDup_bounded_length.
    - rewrite concat_app. apply NoDup_app_intro; auto. intros v A A'. apply IN in A. apply G2 in A'. destruct A'. lia.
    - intros v. rewrite concat_app, in_app_iff, IN, G2. unfold slab. tauto. }
  apply wpx_bind. rewrite I7. destruct (le_lt_dec cap (length ps + length new)) as [OV|OV].
  - apply wpx_oo; [apply HB; rewrite app_length in *; lia|]. eapply oo_mono; [apply emit_parts_oo|].
    intros r [->|H]; exfalso; cbn [length] in *; lia.
  - apply wpx_wp. apply (emit_parts_wp n new (repeat None n) (t_partPtr s) (t_nodePtr s) ps); try lia.
    { apply (gs_rep _ _ _ _ _ _ _ _ _ _ I10). } { apply repeat_length. }
    { intros v Hv. destruct GN as (_ & G2 & _). apply G2 in Hv. apply Hv. }
    intros n2p' pp' np' P1 P2 P3 P4. simpl. exists (ps ++ new). constructor; cbn [t_cp t_cn t_new t_levelPtr t_partPtr t_nodePtr t_parts]; rewrite ?upd_length; auto; try lia.
    + rewrite app_length. lia.
    + now rewrite app_length.
    + apply (gst_step n E n2l (cuts l) (cuts (S l)) l cuts ps new (t_levelPtr s) (t_partPtr s) (t_nodePtr s)); auto; lia.
Qed.
End Slab.
