(** The tree coarsening: the driver. *)
From Coq Require Import ZifyBool ZifyNat.
From Verif Require Import Base Lib Lib2 Lib3 Spec M_Tree M_LBC M_LBCTree P_Tree L_Post2 P_Post P_TreeH L_LevelSet L_LevelSet2 L_LBC L_LBC2 L_LBC3 L_LBC4 L_LBC5
  L_LBCTree L_LBCTree2 L_LBCTree3 P_Collect L_LBCTree4 L_LBCTree5 L_LBCTree6.

Section Driver.
Context {T : Type} {DT : Dflt T}.
Variables (zero : T) (add : T -> T -> T) (ltb : T -> T -> bool) (int_max : T).
Variable sortp : list (T * list nat) -> list (T * list nat).
Hypothesis sort_perm : forall l, Permutation (sortp l) l.
Variable nodeCost : list T.
Variables (n : nat) (tree : list Z).
Hypothesis FO : forest n tree.
Hypothesis CL : n <= length nodeCost.
Hypothesis N2 : 2 <= n.
Notation E := (tree_edge n tree).

(** the steps before the slabs *)
Lemma prefix_wpx B stray cap ip md dr Q :
  (forall k lp ls n2l m sizes p2l, lev_result n tree (repeat 0 (n + 1)) (repeat 0 n) (repeat 0 n) k lp ls n2l ->
     1 <= m -> m <= length sizes -> (forall j, j < length sizes -> 1 <= sizes.[j]) -> list_sum sizes <= tree_bound ip ->
     length p2l = k + 1 -> m <= k -> p2l.[0] = 0 -> (forall j, j < m -> p2l.[j] < p2l.[S j]) -> (forall j, j < m -> p2l.[j] < k) ->
     p2l.[m] = (if k <=? 2 then k else S k) -> (k <= 2 -> m = 1 /\ sizes = [1]) ->
     wpx B (s <- for_ 0 m (tree_slab zero add ltb int_max sortp stray n tree k lp ls n2l nodeCost sizes p2l)
        (mkT (repeat 0 (n + 1)) (repeat 0 n) (repeat zero n) (upd (repeat 0 (n + 1)) 0 0) (repeat 0 cap) (repeat 0 n) 0) ;;
        _ <- rd (t_levelPtr s) m ;; Ok (m, (t_levelPtr s, t_partPtr s, t_nodePtr s))) Q) ->
  wpx B (get_coarse_levelSet_tree zero add ltb int_max sortp stray cap n tree ip md dr nodeCost) Q.
Proof.
  intros HQ. unfold get_coarse_levelSet_tree. pose proof FO as (TL & TB & _). apply wpx_bindw.
  assert (PA : parent_array n tree) by (split; auto; intros l Hl; specialize (TB l Hl); lia).
  apply (wp_for (fun i nc => length nc = n /\ forall p, p < n -> nc.[p] = cnt 0 i (fun l => key n tree l =? p))).
  - lia.
  - split; [apply repeat_length|]. intros p Hp. now rewrite aget_repeat.
  - intros l nc Hl (I1 & I2). wp1. wp1; [lia|]. destruct (Z.leb_spec 0 tree.[l]) as [H0|H0].
    + destruct (key_lt n tree PA l ltac:(lia) H0) as [K1 K2]. wp1. apply rdZ_wp; [lia|lia|]. apply wrZ_wp; [lia|lia|]. rewrite upd_length. split; auto.
      intros p Hp. rewrite cnt_S by lia. rewrite K2. destruct (Nat.eqb_spec (key n tree l) p) as [->|Hne]; cbn [b2n].
      * rewrite aget_upd_eq, I2 by lia. lia.
      * rewrite aget_upd_ne, I2 by lia. lia.
    + wp1. split; auto. intros p Hp. rewrite cnt_S by lia. rewrite I2 by auto. rewrite (key_root n tree l H0). destruct (Nat.eqb_spec n p); cbn [b2n]; lia.
  - intros nc (I1 & I2). apply wpx_bindw. apply (build_levels_wp n tree FO nc); auto; rewrite ?repeat_length; try lia; try (apply repeat0; lia).
    { split; [lia|]. intros u Hu. rewrite I2 by auto. now rewrite (children_length n tree). }
    intros k lp ls n2l LR. pose proof LR as (L1 & L2 & L3 & D & Dk & (v1 & Hv1 & Ev1) & Kn & LP & _). rewrite repeat_length in *.
    apply wpx_bindw. apply (wp_for (fun i lc => length lc = k)); [lia|apply repeat_length| |].
    { intros i lc Hi Hlc. specialize (Dk i ltac:(lia)). wp1. wp1; [lia|]. wp1. wp1; [lia|]. wp1. wp1; [lia|]. wp1; [lia|]. now rewrite upd_length. }
    intros lc Hlc. apply wpx_bindw. apply height_partitioning_wp; [lia|apply repeat_length|lia|].
    intros m sizes p2l H1 H2 H3 H4 H5 H6 H7 H8 H9 H10 H11. apply wpx_bindw. wp1; [rewrite repeat_length; lia|]. eapply HQ; eauto.
Qed.

Lemma init_tst k lp ls n2l cap cuts sizes : lev_result n tree (repeat 0 (n + 1)) (repeat 0 n) (repeat 0 n) k lp ls n2l -> 1 <= cap -> cuts 0 = 0 ->
  tst n tree n2l cap 0 cuts sizes [] (mkT (repeat 0 (n + 1)) (repeat 0 n) (repeat zero n) (upd (repeat 0 (n + 1)) 0 0) (repeat 0 cap) (repeat 0 n) 0).
Proof.
  intros LR Hc H0. constructor; cbn [t_cp t_cn t_new t_levelPtr t_partPtr t_nodePtr t_parts length concat]; rewrite ?upd_length, ?repeat_length; auto; try lia.
  assert (E0 : (upd (repeat 0 (n + 1)) 0 0).[0] = 0) by (apply aget_upd_eq; rewrite repeat_length; lia).
  constructor; auto; try lia.
  - split; [|intros i Hi; cbn [concat length] in Hi; lia]. intros i Hi. cbn [length] in Hi. replace i with 0 by lia. rewrite repeat0 by lia. reflexivity.
  - constructor.
  - intros v. rewrite H0. cbn [concat In]. lia.
Qed.

Theorem driver_wpx stray cap ip md dr : 1 <= cap -> ((exists g, stray = Some g /\ g <= n) \/ forall u v, u < n -> ~ chain E u v 2) ->
  wpx (cap <= n /\ cap <= tree_bound ip /\ ((forall u v, u < n -> ~ chain E u v 2) -> cap <= 1)) (get_coarse_levelSet_tree zero add ltb int_max sortp stray cap n tree ip md dr nodeCost)
    (fun '(m, (flp, pp, np)) => 1 <= m <= n /\ valid_schedule n E m flp pp np /\ flp.[m] <= n /\ flp.[m] <= tree_bound ip /\
       ((forall u v, u < n -> ~ chain E u v 2) -> m = 1 /\ flp.[1] <= 1)).
Proof.
  intros Hcap HS. apply prefix_wpx. intros k lp ls n2l m sizes p2l LR P1 P2 P3 P4 P5 P6 P7 P8 P9 P10 P11.
  pose proof LR as (L1 & L2 & L3 & D & Dk & (v1 & Hv1 & Ev1) & Kn & LP & _).
  assert (SH : (forall u v, u < n -> ~ chain E u v 2) -> k <= 2).
  { intros HC. destruct (le_lt_dec k 2); auto. exfalso. destruct (D v1 Hv1) as [(u & Hc) _].
    assert (Hsp : exists x, chain E x v1 2).
    { replace n2l.[v1] with ((n2l.[v1] - 2) + 2) in Hc by lia. clear - Hc. revert u Hc. induction (n2l.[v1] - 2) as [|d IH]; intros u Hc; [eauto|].
      apply chain_uncons in Hc. destruct Hc as (w & _ & Hc). eauto. }
    destruct Hsp as (x & Hx). apply (HC x v1); auto. apply chain_uncons in Hx. destruct Hx as (w & (A & _) & _). auto. }
  assert (SO : forall l, l < m -> stray_ok n k stray p2l.[S l]).
  { intros l Hl. destruct HS as [HS|HS]; [now right|]. left. specialize (SH HS). destruct (P11 SH) as [-> _]. replace (S l) with 1 by lia. rewrite P10. replace (k <=? 2) with true by lia. lia. }
  apply wpx_bind.
  apply (wpx_for _ (fun l s => exists ps, tst n tree n2l cap l (aget p2l) sizes ps s)).
  - lia.
  - exists []. apply (init_tst k lp ls); auto.
  - intros l s Hl (ps & I). apply (tree_slab_wpx zero add ltb int_max sortp sort_perm nodeCost n tree FO CL k lp ls n2l LR _ stray cap l (aget p2l) sizes p2l ps s); auto; try lia.
    + apply P3. lia.
    + specialize (P9 l ltac:(lia)). lia.
    + apply P8. lia.
    + destruct (Nat.eq_dec (S l) m) as [->|]; [rewrite P10; destruct (k <=? 2); lia|]. specialize (P9 (S l) ltac:(lia)). lia.
    + apply SO. lia.
    + intros C1 C2. assert (C3 : cap <= list_sum sizes) by (rewrite <- (firstn_skipn (S l) sizes), list_sum_app; lia).
      splits; [auto|lia|]. intros HC. destruct (P11 (SH HC)) as [_ ES]. rewrite ES in C3. auto.
  - intros s (ps & [I1 I2 I3 I4 I5 I6 I0 I7 I8 I9 I10]). pose proof (gs_fll _ _ _ _ _ _ _ _ _ _ I10) as FLL.
    apply wpx_bindw. wp1; [lia|]. simpl. rewrite FLL.
    assert (LC : length (concat ps) <= n).
    { destruct I10 as [_ ND IN _ _ _ _ _]. apply NoDup_bounded_length; auto. intros v. rewrite IN. tauto. }
    assert (SB : length ps <= tree_bound ip). { rewrite <- (firstn_skipn m sizes), list_sum_app in P4. lia. }
    splits; try lia.
    + apply (gst_final n E n2l p2l.[m] m (aget p2l) ps); auto; try lia.
      * intros v Hv. specialize (Dk v Hv). rewrite P10. destruct (k <=? 2); lia.
      * intros u v. apply (lr_edge n tree k lp ls n2l LR).
      * intros j Hj. specialize (P8 j Hj). lia.
    + intros H. destruct (P11 (SH H)) as [A B]. split; auto. subst m. rewrite FLL. rewrite B in I8. simpl in I8. lia.
Qed.

(** with at least three levels the last slab always reads beyond the arrays *)
Theorem driver_oob cap ip md dr u v : 1 <= cap -> u < n -> chain E u v 2 ->
  get_coarse_levelSet_tree zero add ltb int_max sortp None cap n tree ip md dr nodeCost = Err OOB.
Proof.
  intros Hcap Hu Hc. apply (wpx_err _ True). apply prefix_wpx. intros k lp ls n2l m sizes p2l LR P1 P2 P3 P4 P5 P6 P7 P8 P9 P10 P11.
  pose proof LR as (L1 & L2 & L3 & D & Dk & (v1 & Hv1 & Ev1) & Kn & LP & _).
  assert (K3 : 3 <= k).
  { assert (Hv : v < n) by (inversion Hc as [|? ? ? ? _ He]; subst; apply He). destruct (D v Hv) as [_ Hm]. specialize (Hm u 2 Hc). specialize (Dk v Hv). lia. }
  replace (k <=? 2) with false in P10 by lia. rewrite (for_split _ 0 (m - 1) m) by lia. apply wpx_bind. apply wpx_bind.
  apply (wpx_for _ (fun l s => exists ps, tst n tree n2l cap l (aget p2l) sizes ps s)).
  - lia.
  - exists []. apply (init_tst k lp ls); auto.
  - intros l s Hl (ps & I). pose proof (P9 (S l) ltac:(lia)).
    apply (tree_slab_wpx zero add ltb int_max sortp sort_perm nodeCost n tree FO CL k lp ls n2l LR _ None cap l (aget p2l) sizes p2l ps s); auto; try lia.
    + apply P3. lia.
    + specialize (P9 l ltac:(lia)). lia.
    + apply P8. lia.
    + left. lia.
  - intros s _. rewrite for_step by lia. apply wpx_bind. pose proof (P9 (m - 1) ltac:(lia)) as Q9. replace (S (m - 1)) with m by lia. 
    unfold tree_slab. apply wpx_bindw. wp1; [lia|]. apply wpx_bindw. wp1; [lia|]. apply wpx_bindw. wp1; [lia|].
    replace (S (m - 1)) with m by lia. rewrite P10. apply wpx_bind. unfold slab_tree.
    rewrite (for_split _ p2l.[m - 1] k (S k)) by lia. apply wpx_bindw.
    apply (slab_tree_init add ltb int_max nodeCost n tree FO CL k lp ls n2l LR); auto; try lia. intros tt _ _. rewrite for_step by lia.
    unfold rd_stray at 1. rewrite repeat_length. replace (k <? k) with false by lia. simpl. auto.
Qed.
End Driver.
