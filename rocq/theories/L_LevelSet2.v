(** Consequences of the level-set invariant, the sym_lib variants and the queue variant. *)
From Verif Require Import Base Lib Spec M_LevelSet L_LevelSet.
From Coq Require Import ZifyBool ZifyNat.

Lemma levels_in_level n Lp Li k ptr lset n2l l v :
  levels_exact n Lp Li k ptr lset n2l -> l < k -> in_level ptr lset l v ->
  v < n /\ n2l.[v] = l /\ depth_is (edge n Lp Li) v l.
Proof.
  intros ((P0 & Pm & Pk & Plt & Pinj) & _ & Hl & _) Hlk [i [Hi E]].
  pose proof (mono_le (aget ptr) k Pm (S l) k ltac:(lia) ltac:(lia)) as Hm.
  rewrite <- E. split; [apply Plt; lia|]. now apply Hl.
Qed.

Lemma levels_cover n Lp Li k ptr lset n2l v :
  levels_exact n Lp Li k ptr lset n2l -> v < n -> exists l, l < k /\ in_level ptr lset l v.
Proof.
  intros ((P0 & Pm & Pk & Plt & Pinj) & _) Hv.
  destruct (inj_onto n (aget lset) Plt Pinj v Hv) as [i [Hi E]].
  destruct (bucket_exists (aget ptr) k i) as [l [Hl Hil]]; [lia|lia|].
  exists l. split; auto. exists i. auto.
Qed.

Lemma levels_ordered n Lp Li k ptr lset n2l :
  wf_csc n Lp Li -> levels_exact n Lp Li k ptr lset n2l ->
  level_ordered (edge n Lp Li) k ptr lset.
Proof.
  intros W HX u v lu lv He Hlu Hlv Hu Hv.
  destruct (levels_in_level _ _ _ _ _ _ _ _ _ HX Hlu Hu) as (_ & _ & [w Hw] & _).
  destruct (levels_in_level _ _ _ _ _ _ _ _ _ HX Hlv Hv) as (_ & _ & _ & Hd).
  specialize (Hd w (S lu) ltac:(econstructor; eauto)). lia.
Qed.

(** membership is determined by depth *)
Lemma levels_depth n Lp Li k ptr lset n2l l v :
  levels_exact n Lp Li k ptr lset n2l -> v < n ->
  (l < k /\ in_level ptr lset l v <-> depth_is (edge n Lp Li) v l).
Proof.
  intros HX Hv. split.
  - intros [Hl Hin]. now destruct (levels_in_level _ _ _ _ _ _ _ _ _ HX Hl Hin) as (_ & _ & ?).
  - intros Hd. destruct (levels_cover _ _ _ _ _ _ _ v HX Hv) as [l' [Hl' Hin]].
    destruct (levels_in_level _ _ _ _ _ _ _ _ _ HX Hl' Hin) as (_ & _ & Hd').
    rewrite (depth_is_unique _ _ _ _ Hd Hd'). auto.
Qed.

Lemma chain_depth_rank (E : nat -> nat -> Prop) (f : nat -> nat) :
  (forall u v, E u v -> f u < f v) -> forall u v k, chain E u v k -> f u + k <= f v.
Proof.
  intros Hf u v k H. induction H as [|u v w k H IH He]; [lia|]. apply Hf in He. lia.
Qed.

(** every level below the number of levels is inhabited *)
Lemma levels_nonempty n Lp Li k ptr lset n2l l :
  wf_csc n Lp Li -> levels_exact n Lp Li k ptr lset n2l -> 0 < n -> l < k ->
  exists v, v < n /\ in_level ptr lset l v.
Proof.
  intros W HX Hn Hl. pose proof HX as (_ & _ & _ & HK & _).
  destruct (HK Hn) as (Hk & u & v & Hu & Hc).
  (* walk down the chain: node at distance l from the start has depth >= l; take a
     deepest chain instead *)
  assert (Hv : v < n) by (eapply chain_lt; eauto).
  destruct (levels_cover _ _ _ _ _ _ _ v HX Hv) as [lv [Hlv Hin]].
  destruct (levels_in_level _ _ _ _ _ _ _ _ _ HX Hlv Hin) as (_ & _ & [w Hw] & Hmax).
  pose proof (Hmax u _ Hc) as Hge.
  assert (lv = k - 1) by lia. subst lv. clear Hc Hge Hmax.
  (* along a chain of length k-1 levels strictly increase, hence the node at position l has level l *)
  destruct (chain_walk _ _ _ _ Hw) as (p & HL & H0 & HKp & HE).
  assert (Hpn : forall i, i <= k - 1 -> p.[i] < n).
  { intros i Hi. destruct (Nat.eq_dec i (k - 1)) as [->|]; [congruence|].
    apply (wf_edge_lt n Lp Li W p.[i] p.[S i]). apply HE. lia. }
  exists p.[l]. split; [apply Hpn; lia|].
  destruct (levels_cover _ _ _ _ _ _ _ p.[l] HX (Hpn l ltac:(lia))) as [l' [Hl' Hin']].
  destruct (levels_in_level _ _ _ _ _ _ _ _ _ HX Hl' Hin') as (_ & _ & [z Hz] & Hmax').
  assert (l <= l').
  { apply (Hmax' p.[0]). rewrite <- (Nat.sub_0_r l) at 2.
    apply (walk_chain _ p (k - 1)); auto; lia. }
  assert (l' <= l).
  { pose proof (walk_chain _ p (k - 1) HE l (k - 1) ltac:(lia) ltac:(lia)) as Hr.
    pose proof (chain_app _ _ _ _ _ _ Hz Hr) as Hzr. rewrite HKp in Hzr.
    destruct (levels_in_level _ _ _ _ _ _ _ _ _ HX Hlv Hin) as (_ & _ & _ & Hm).
    specialize (Hm _ _ Hzr). lia. }
  assert (l' = l) as -> by lia. auto.
Qed.

(** failure is a long walk; success excludes it *)
Lemma levels_no_walk n Lp Li k ptr lset n2l :
  wf_csc n Lp Li -> levels_exact n Lp Li k ptr lset n2l ->
  ~ (0 < n /\ exists u v, u < n /\ chain (edge n Lp Li) u v (n - 1)).
Proof.
  intros W HX (Hn & u & v & Hu & Hc).
  assert (Hv : v < n) by (eapply chain_lt; eauto).
  destruct (levels_cover _ _ _ _ _ _ _ v HX Hv) as [lv [Hlv Hin]].
  destruct (levels_in_level _ _ _ _ _ _ _ _ _ HX Hlv Hin) as (_ & _ & _ & Hmax).
  specialize (Hmax _ _ Hc). destruct HX as (_ & [|] & _); lia.
Qed.

Lemma edge_bounds n Lp Li : wf_csc n Lp Li -> forall a b, edge n Lp Li a b -> a < n /\ b < n.
Proof. intros W a b. now apply wf_edge_lt. Qed.

Lemma build_levelSet_total n Lp Li levelPtr levelSet n2l :
  wf_csc n Lp Li -> one_diag n Lp Li ->
  n <= length levelPtr -> n <= length levelSet -> n <= length n2l -> levelPtr.[0] = 0 ->
  exists k ptr lset n2l', build_levelSet_CSC n Lp Li levelPtr levelSet n2l = Ok (k, (ptr, lset, n2l')) /\
    ((k = (-1)%Z /\ 0 < n /\ (has_cycle (edge n Lp Li) \/ visits_all n (edge n Lp Li))) \/
     ((0 <= k)%Z /\ levels_exact n Lp Li (Z.to_nat k) ptr lset n2l' /\
      ~ (0 < n /\ (has_cycle (edge n Lp Li) \/ visits_all n (edge n Lp Li))))).
Proof.
  intros W D1 HP HS HN H0.
  pose proof (build_levelSet_wp n Lp Li W D1 levelPtr levelSet n2l HP HS HN H0) as Hw.
  apply wp_ok in Hw. destruct Hw as [[k [[ptr lset] n2l']] [Er HQ]].
  exists k, ptr, lset, n2l'. split; auto.
  destruct HQ as [(Hk & Hn & HF)|(Hk & HX)].
  - left. splits; auto. apply walk_all; auto. now apply edge_bounds.
  - right. splits; auto. intros [Hn HC]. apply (levels_no_walk _ _ _ _ _ _ _ W HX).
    split; auto. apply walk_all; auto. now apply edge_bounds.
Qed.

(** * The variants without node_to_level are projections *)

Definition drop_n2l (st : list bool * list nat * list nat * nat) : list bool * list nat * nat :=
  let '(vis, lset, n2l, col) := st in (vis, lset, col).

Definition proj_ls (s : ls_state) : ls2_state :=
  mkLS2 (ls_begin s) (ls_end1 s) (ls_cur s) (ls_col s) (ls_deg s) (ls_vis s) (ls_ptr s) (ls_set s) (ls_fail s).

Lemma scan_level_proj b e1 cur deg st r :
  scan_level b e1 cur deg st = Ok r -> scan_level2 b e1 deg (drop_n2l st) = Ok (drop_n2l r).
Proof.
  unfold scan_level, scan_level2, for_. generalize (e1 - b) as m. intros m. revert b st.
  induction m as [|m IH]; intros b st H; simpl in *.
  - now inversion H.
  - destruct st as [[[vis lset] n2l] col]. simpl in *.
    destruct (rd deg b) as [d|]; simpl in *; [|discriminate].
    destruct (rd vis b) as [v|]; simpl in *; [|discriminate].
    destruct ((d =? 1)%Z && negb v).
    + destruct (wr vis b true) as [vis'|]; simpl in *; [|discriminate].
      destruct (wr lset col b) as [lset'|]; simpl in *; [|discriminate].
      destruct (wr n2l b cur) as [n2l'|]; simpl in *; [|discriminate].
      apply (IH _ _ H).
    + apply (IH _ _ H).
Qed.

Lemma ls_round_proj n Lp Li s s' :
  ls_round n Lp Li s = Ok s' -> ls2_round n Lp Li (proj_ls s) = Ok (proj_ls s').
Proof.
  unfold ls_round, ls2_round. intros H.
  destruct (scan_level (ls_begin s) (ls_end1 s) (ls_cur s) (ls_deg s)
             (ls_vis s, ls_set s, ls_n2l s, ls_col s)) as [[[[vis lset] n2l] col]|] eqn:Es;
    simpl in H; [|discriminate].
  apply scan_level_proj in Es. simpl in Es. unfold proj_ls at 1 2 3 4 5 6; simpl. rewrite Es. simpl.
  destruct (n <=? S (ls_cur s)).
  - inversion H; subst. reflexivity.
  - destruct (wr (ls_ptr s) (S (ls_cur s)) col); simpl in *; [|discriminate].
    destruct (advance_begin n (ls_deg s) (ls_begin s)); simpl in *; [|discriminate].
    destruct (retreat_end n (ls_deg s) a0 (ls_end1 s)); simpl in *; [|discriminate].
    destruct (rd a (ls_cur s - 0)); simpl in *; [|discriminate].
    destruct (rd a (S (ls_cur s))); simpl in *; [|discriminate].
    destruct (remove_edges Lp Li lset a2 a3 (ls_deg s)); simpl in *; [|discriminate].
    inversion H; subst. reflexivity.
Qed.

Lemma while_proj {S T} (f : S -> T) fuel c b c' b' s r :
  (forall s, c' (f s) = c s) ->
  (forall s s', b s = Ok s' -> b' (f s) = Ok (f s')) ->
  while_ fuel c b s = Ok r -> while_ fuel c' b' (f s) = Ok (f r).
Proof.
  intros Hc Hb. revert s; induction fuel as [|k IH]; intros s H; simpl in *; [discriminate|].
  rewrite Hc. destruct (c s) as [[|]|]; simpl in *; [| |discriminate].
  - destruct (b s) as [s'|] eqn:E; simpl in *; [|discriminate].
    rewrite (Hb _ _ E). simpl. auto.
  - now inversion H.
Qed.

Lemma inplace_proj n Lp Li levelPtr levelSet n2l k ptr lset n2l' :
  build_levelSet_CSC n Lp Li levelPtr levelSet n2l = Ok (k, (ptr, lset, n2l')) ->
  build_levelSet_CSC_inplace n Lp Li levelPtr levelSet = Ok (k, (ptr, lset)).
Proof.
  unfold build_levelSet_CSC, build_levelSet_CSC_inplace. intros H.
  destruct (init_degree n Lp Li) as [deg|]; cbn [bind] in *; [|discriminate].
  match type of H with bind ?m _ = _ => destruct m as [s|] eqn:Ew end; cbn [bind] in H; [|discriminate].
  pose proof (while_proj proj_ls _ _ _
    (fun s => Ok (negb (l2_fail s) && (l2_begin s <? l2_end1 s))) (ls2_round n Lp Li) _ _
    (fun s => eq_refl) (ls_round_proj n Lp Li) Ew) as Ew'.
  unfold proj_ls at 1 in Ew'. cbn [ls_begin ls_end1 ls_cur ls_col ls_deg ls_vis ls_ptr ls_set ls_fail] in Ew'.
  rewrite Ew'. cbn [bind]. inversion H; subst. reflexivity.
Qed.

Lemma resize_length l m : length (resize l m) = m.
Proof. unfold resize. rewrite app_length, firstn_length, repeat_length. lia. Qed.

(** the in-place variant on its own terms *)
Lemma inplace_total n Lp Li levelPtr levelSet :
  wf_csc n Lp Li -> one_diag n Lp Li ->
  n <= length levelPtr -> n <= length levelSet -> levelPtr.[0] = 0 ->
  exists k ptr lset n2l, build_levelSet_CSC_inplace n Lp Li levelPtr levelSet = Ok (k, (ptr, lset)) /\
    ((k = (-1)%Z /\ 0 < n /\ (has_cycle (edge n Lp Li) \/ visits_all n (edge n Lp Li))) \/
     ((0 <= k)%Z /\ levels_exact n Lp Li (Z.to_nat k) ptr lset n2l /\
      ~ (0 < n /\ (has_cycle (edge n Lp Li) \/ visits_all n (edge n Lp Li))))).
Proof.
  intros W D1 HP HS H0.
  destruct (build_levelSet_total n Lp Li levelPtr levelSet (repeat 0 n) W D1 HP HS
     ltac:(rewrite repeat_length; lia) H0) as (k & ptr & lset & n2l' & E & H).
  exists k, ptr, lset, n2l'. split; auto. eapply inplace_proj; eauto.
Qed.

(** computingNode2Level tabulates the slices *)
Lemma node2level_wp n nlevels ptr lset n2l (Q : list nat -> Prop) :
  nlevels < length ptr -> n <= length lset -> level_partition n nlevels ptr lset ->
  (forall r, length r = n -> (forall l v, l < nlevels -> in_level ptr lset l v -> r.[v] = l) -> Q r) ->
  wp (computingNode2Level ptr lset (Z.of_nat nlevels) n n2l) Q.
Proof.
  intros HLp HLs (P0 & Pm & Pk & Plt & Pinj) HQ. unfold computingNode2Level. rewrite Nat2Z.id.
  assert (Hb : forall l, l < nlevels -> ptr.[S l] <= n).
  { intros l Hl. rewrite <- Pk. apply (mono_le (aget ptr) nlevels); auto; lia. }
  apply (wp_for (fun lvl r => length r = n /\
     (forall l v, l < lvl -> in_level ptr lset l v -> r.[v] = l))).
  - lia.
  - split; [apply resize_length|]. intros; lia.
  - intros lvl r Hl [HL Hr]. specialize (Hb lvl ltac:(lia)). pose proof (Pm lvl ltac:(lia)).
    wp1. wp1; [lia|]. wp1. wp1; [lia|].
    apply (wp_for (fun j r' => length r' = n /\
       (forall k, k < ptr.[lvl] -> r'.[lset.[k]] = r.[lset.[k]]) /\
       (forall k, ptr.[lvl] <= k < j -> r'.[lset.[k]] = lvl))).
    + lia.
    + splits; auto. intros; lia.
    + intros j r' Hj (HL' & Ho & Hn'). pose proof (Plt j ltac:(lia)).
      wp1. wp1; [lia|]. wp1; [lia|]. splits.
      * now rewrite upd_length.
      * intros k Hk. rewrite aget_upd_ne; auto. intros E. apply Pinj in E; lia.
      * intros k Hk. rewrite aget_upd by lia. destruct (Nat.eqb_spec lset.[k] lset.[j]) as [|N]; auto.
        apply Hn'. destruct (Nat.eq_dec k j) as [->|]; [congruence|lia].
    + intros r' (HL' & Ho & Hn'). split; auto. intros l v Hlt [k [Hk E]].
      destruct (Nat.eq_dec l lvl) as [->|].
      * rewrite <- E. apply Hn'. lia.
      * rewrite <- E. rewrite Ho.
        -- apply Hr; [lia|]. exists k. auto.
        -- assert (ptr.[S l] <= ptr.[lvl]); [|lia].
           apply (mono_le (aget ptr) nlevels); auto; lia.
  - intros r [HL Hr]. apply HQ; auto.
Qed.

(** * The queue variant *)
Section Queue.
Variables (n : nat) (Lp Li : list nat).
Hypothesis W : wf_csc n Lp Li.
Hypothesis DF : diag_first n Lp Li.
Let E := edge n Lp Li.
Let D1 : one_diag n Lp Li := one_diag_of_first n Lp Li DF.

(** [D] marks exactly the nodes listed in [lset] below [col] *)
Definition qlisted (D : nat -> bool) (lset : list nat) (col : nat) : Prop :=
  n <= length lset /\ col <= n /\
  (forall k, k < col -> lset.[k] < n) /\
  (forall k k', k < col -> k' < col -> lset.[k] = lset.[k'] -> k = k') /\
  (forall v, v < n -> (D v = true <-> exists k, k < col /\ lset.[k] = v)).

Lemma queue_drain_wp dq lset col D (Q : _ -> Prop) :
  qlisted D lset col -> NoDup dq -> (forall v, In v dq -> v < n /\ D v = false) ->
  (forall lset' D', qlisted D' lset' (col + length dq) -> length lset' = length lset ->
     (forall k, k < col -> lset'.[k] = lset.[k]) ->
     (forall i, i < length dq -> lset'.[col + i] = dq.[i]) ->
     (forall v, D' v = true <-> D v = true \/ In v dq) ->
     Q (lset', col + length dq)) ->
  wp (queue_drain dq lset col) Q.
Proof.
  intros L HN Hdq HQ. unfold queue_drain.
  apply (wp_foreach (fun pre st => let '(lset', col') := st in
     col' = col + length pre /\ length lset' = length lset /\
     (forall k, k < col -> lset'.[k] = lset.[k]) /\
     (forall i, i < length pre -> lset'.[col + i] = dq.[i]) /\
     exists D', qlisted D' lset' col' /\ (forall v, D' v = true <-> D v = true \/ In v pre))).
  - simpl. splits; auto; try (intros; lia). exists D. split; auto. intros v. tauto.
  - intros pre x post [lset' col'] Eq (Hc & HL & Hpre & Hnew & D' & L' & HD').
    destruct L' as (V2 & V3 & V4 & V5 & V6).
    assert (Hx : x < n /\ D x = false) by (apply Hdq; rewrite Eq; apply in_elt).
    destruct Hx as [Hxn HDx].
    assert (Hxp : ~ In x pre).
    { rewrite Eq in HN. apply NoDup_remove_2 in HN. intros Hi. apply HN. apply in_or_app. auto. }
    assert (HD'x : D' x = false).
    { destruct (D' x) eqn:Ex; auto. apply HD' in Ex. destruct Ex; congruence || contradiction. }
    assert (Hne : forall k, k < col' -> lset'.[k] <> x).
    { intros k Hk Ek. rewrite (proj2 (V6 x Hxn)) in HD'x; [discriminate|eauto]. }
    assert (Hroom : col' < n).
    { destruct (Nat.eq_dec col' n) as [Ec|]; [|lia]. exfalso.
      destruct (inj_onto n (aget lset')) with (y := x) as [k [Hk Ek]]; auto.
      - intros i Hi. apply V4. lia.
      - intros i j Hi Hj. apply V5; lia.
      - apply (Hne k); auto. lia. }
    wp1. wp1; [lia|]. apply wp_ret. rewrite app_length. simpl. splits.
    + lia.
    + now rewrite upd_length.
    + intros k Hk. rewrite aget_upd_ne by lia. auto.
    + intros i Hi. rewrite aget_upd by lia. destruct (Nat.eqb_spec (col + i) col') as [Ei|Ni].
      * replace i with (length pre) by lia. rewrite Eq. rewrite aget_app2 by lia.
        now rewrite Nat.sub_diag.
      * apply Hnew. lia.
    + exists (fun v => D' v || (v =? x)). split.
      * unfold qlisted. rewrite upd_length. splits; auto; try lia.
        -- intros k Hk. rewrite aget_upd by lia. destruct (Nat.eqb_spec k col'); auto. apply V4. lia.
        -- intros k k' Hk Hk'. rewrite !aget_upd by lia.
           destruct (Nat.eqb_spec k col'), (Nat.eqb_spec k' col'); intros E'; try lia.
           ++ elim (Hne k'); [lia|auto].
           ++ elim (Hne k); [lia|auto].
           ++ apply V5; auto; lia.
        -- intros v Hv. rewrite orb_true_iff, Nat.eqb_eq, V6 by auto. split.
           ++ intros [[k [Hk Ek]]| ->].
              ** exists k. split; [lia|]. rewrite aget_upd_ne by lia. auto.
              ** exists col'. split; [lia|]. now rewrite aget_upd_eq by lia.
           ++ intros [k [Hk Ek]]. rewrite aget_upd in Ek by lia.
              destruct (Nat.eqb_spec k col'); [right; auto|]. left. exists k. split; [lia|auto].
      * intros v. rewrite orb_true_iff, Nat.eqb_eq, HD', in_app_iff. simpl. intuition.
  - intros [lset' col'] (Hc & HL & Hpre & Hnew & D' & L' & HD'). subst col'.
    apply (HQ lset' D'); auto.
Qed.

Lemma queue_init_wp deg D (Q : list nat -> Prop) :
  length deg = n -> (forall v, v < n -> deg.[v] = Z.of_nat (remdeg n Lp Li D v)) ->
  (forall dq, NoDup dq -> (forall v, In v dq <-> v < n /\ remdeg n Lp Li D v = 1) -> Q dq) ->
  wp (queue_init n deg) Q.
Proof.
  intros HL Hd HQ. unfold queue_init.
  apply (wp_for (fun i dq => NoDup dq /\ (forall v, In v dq <-> v < i /\ remdeg n Lp Li D v = 1))).
  - lia.
  - split; [constructor|]. intros v. simpl. split; [tauto|lia].
  - intros i dq Hi [HN Hdq]. wp1. wp1; [lia|]. apply wp_ret. rewrite Hd by lia.
    destruct (Z.eqb_spec (Z.of_nat (remdeg n Lp Li D i)) 1) as [Ei|Ei].
    + split.
      * rewrite <- (rev_involutive (dq ++ [i])), rev_app_distr. apply NoDup_rev. simpl.
        constructor; [|now apply NoDup_rev]. rewrite <- in_rev, Hdq. lia.
      * intros v. rewrite in_app_iff, Hdq. simpl. split.
        -- intros [[? ?]|[<-|[]]]; split; auto; lia.
        -- intros [Hv Hr]. destruct (Nat.eq_dec v i) as [->|]; auto. left. split; auto. lia.
    + split; auto. intros v. rewrite Hdq. split; (intros [Hv Hr]; split; auto; try lia).
      destruct (Nat.eq_dec v i) as [->|]; lia.
  - intros dq [HN Hdq]. apply HQ; auto.
Qed.

Lemma remdeg_pos D v : v < n -> 1 <= remdeg n Lp Li D v.
Proof.
  intros Hv. unfold remdeg.
  pose proof (sum_r_ge_one 0 n (fun u => if D u && negb (u =? v) then 0 else mult Lp Li u v) v ltac:(lia)) as H.
  simpl in H. rewrite Nat.eqb_refl in H. simpl in H. rewrite andb_false_r in H.
  rewrite (mult_diag n Lp Li D1 v Hv) in H. auto.
Qed.

(** [F]: all nodes listed so far (final for this round); [D]: those whose edges are removed *)
Lemma queue_remove_wp F D lset lo hi deg (Q : _ -> Prop) :
  lo <= hi -> hi <= length lset ->
  (forall k, lo <= k < hi -> lset.[k] < n /\ D lset.[k] = false) ->
  (forall k k', lo <= k < hi -> lo <= k' < hi -> lset.[k] = lset.[k'] -> k = k') ->
  length deg = n ->
  (forall v, v < n -> deg.[v] = Z.of_nat (remdeg n Lp Li D v)) ->
  (forall v, v < n -> (F v = true <-> D v = true \/ exists k, lo <= k < hi /\ lset.[k] = v)) ->
  (forall v, v < n -> F v = true <-> F v = true /\ remdeg n Lp Li D v = 1) ->
  (forall v, v < n -> remdeg n Lp Li D v = 1 -> F v = true) ->
  (forall deg' dq', length deg' = n ->
     (forall v, v < n -> deg'.[v] = Z.of_nat (remdeg n Lp Li F v)) ->
     NoDup dq' ->
     (forall v, In v dq' <-> v < n /\ F v = false /\ remdeg n Lp Li F v = 1) -> Q (deg', dq')) ->
  wp (queue_remove Lp Li lset lo hi (deg, [])) Q.
Proof.
  intros Hlh Hlen Hset Hinj HL Hd HF HF1 HF2 HQ. unfold queue_remove.
  apply (wp_for (fun l st => let '(deg', dq') := st in length deg' = n /\ NoDup dq' /\ exists D',
     (forall v, v < n -> deg'.[v] = Z.of_nat (remdeg n Lp Li D' v)) /\
     (forall v, D' v = true <-> D v = true \/ exists k, lo <= k < l /\ lset.[k] = v) /\
     (forall v, In v dq' <-> v < n /\ F v = false /\ remdeg n Lp Li D' v = 1))); auto.
  - splits; auto; [constructor|]. exists D. splits; auto.
    + intros v. split; auto. intros [|[k [Hk _]]]; auto. lia.
    + intros v. simpl. split; [tauto|]. intros (Hv & Hf & Hr). apply HF2 in Hr; auto. congruence.
  - intros l [deg' dq'] Hl (HL' & HN' & D' & Hd' & HD' & Hdq'). destruct (Hset l Hl) as [Hc HDc].
    pose proof (wf_Lp_len n Lp Li W).
    wp1. wp1; [lia|]. wp1. wp1; [lia|]. wp1. wp1; [lia|].
    set (cc := lset.[l]) in *.
    assert (HDc' : D' cc = false).
    { destruct (D' cc) eqn:Ec; auto. apply HD' in Ec. destruct Ec as [Ec|[k [Hk Ec]]].
      - congruence.
      - apply Hinj in Ec; lia. }
    destruct (DF cc Hc) as (DF1 & DF2 & DF3).
    (* edges out of cc go to nodes outside F *)
    assert (Hout : forall k, Lp.[cc] < k < Lp.[S cc] -> F Li.[k] = false).
    { intros k Hk. destruct (wf_col_lt n Lp Li W cc k Hc ltac:(lia)) as [Hk1 Hk2].
      pose proof (wf_Li_lt n Lp Li W k Hk2) as Hv.
      destruct (F Li.[k]) eqn:Ef; auto. exfalso.
      apply HF1 in Ef; auto. destruct Ef as [_ Hr].
      assert (He : edge n Lp Li cc Li.[k]).
      { split; [auto|split; [exists k; split; [lia|auto]|]]. apply not_eq_sym. apply DF3. lia. }
      rewrite (remdeg_one_iff n Lp Li D1 D Li.[k] Hv) in Hr. rewrite (Hr cc He) in HDc. discriminate. }
    apply (wp_for (fun j st => let '(dg, q) := st in length dg = n /\ NoDup q /\
       (forall v, v < n -> dg.[v] =
          (deg'.[v] - Z.of_nat (if (cc =? v)%nat then 0%nat else cnt Lp.[cc] j (fun k => (Li.[k] =? v)%nat)))%Z) /\
       (forall v, In v q <-> v < n /\ F v = false /\ dg.[v] = 1%Z))).
    + lia.
    + splits; auto.
      * intros v Hv. rewrite cnt_S by lia. rewrite (cnt_all_false Lp.[cc] Lp.[cc]) by lia.
        rewrite DF2. destruct (Nat.eqb_spec cc v); simpl; lia.
      * intros v. rewrite Hdq'. split; intros (Hv & Hf & Hr); splits; auto.
        -- rewrite Hd', Hr; auto.
        -- rewrite Hd' in Hr by auto. lia.
    + intros j [dg q] Hj (HLg & HNq & Hg & Hq).
      destruct (wf_col_lt n Lp Li W cc j Hc ltac:(lia)) as [Hj1 Hj2].
      pose proof (wf_Li_lt n Lp Li W j Hj2) as Hv. set (v := Li.[j]) in *.
      wp1. wp1; [lia|]. fold v. wp1. wp1; [lia|]. wp1. wp1; [lia|]. wp1. wp1; [rewrite upd_length; lia|].
      apply wp_ret. rewrite aget_upd_eq by lia.
      assert (Hvc : cc <> v) by (apply not_eq_sym; apply DF3; lia).
      (* before the decrement the degree is at least 2 *)
      assert (Hge : (2 <= dg.[v])%Z).
      { rewrite Hg by auto. destruct (Nat.eqb_spec cc v); [lia|]. rewrite Hd' by auto.
        pose proof (remdeg_step n Lp Li D' cc v Hc HDc') as Hs.
        destruct (Nat.eqb_spec cc v); [lia|].
        pose proof (remdeg_pos (fun u => D' u || (u =? cc)) v Hv).
        unfold mult in Hs. rewrite (cnt_split Lp.[cc] (S j)) in Hs by lia.
        rewrite cnt_S in Hs by lia. fold v in Hs. rewrite Nat.eqb_refl in Hs. simpl in Hs. lia. }
      assert (Hgen : forall w, w < n -> (upd dg v (dg.[v] - 1)%Z).[w] =
          (deg'.[w] - Z.of_nat (if (cc =? w)%nat then 0%nat else cnt Lp.[cc] (S j) (fun k => (Li.[k] =? w)%nat)))%Z).
      { intros w Hw. rewrite aget_upd by lia. rewrite cnt_S by lia. fold v.
        destruct (Nat.eqb_spec w v) as [->|N].
        - rewrite Nat.eqb_refl. rewrite Hg by auto. destruct (Nat.eqb_spec cc v); [lia|]. simpl. lia.
        - destruct (Nat.eqb_spec v w) as [|_]; [lia|]. rewrite Hg by auto.
          destruct (cc =? w); simpl; lia. }
      destruct (Z.eqb_spec (dg.[v] - 1) 1) as [E1|E1].
      * assert (Hnq : ~ In v q) by (rewrite Hq; intros (_ & _ & ?); lia).
        splits; auto.
        -- now rewrite upd_length.
        -- rewrite <- (rev_involutive (q ++ [v])), rev_app_distr. apply NoDup_rev. simpl.
           constructor; [|now apply NoDup_rev]. now rewrite <- in_rev.
        -- intros w. rewrite in_app_iff, Hq. simpl. rewrite aget_upd by lia. split.
           ++ intros [(Hw & Hf & Hr)|[<-|[]]].
              ** destruct (Nat.eqb_spec w v) as [->|]; splits; auto; lia.
              ** rewrite Nat.eqb_refl. splits; auto. apply Hout. lia.
           ++ intros (Hw & Hf & Hr). destruct (Nat.eqb_spec w v) as [->|]; auto.
      * splits; auto.
        -- now rewrite upd_length.
        -- intros w. rewrite Hq. rewrite aget_upd by lia. split; intros (Hw & Hf & Hr); splits; auto.
           ++ destruct (Nat.eqb_spec w v) as [->|]; lia.
           ++ destruct (Nat.eqb_spec w v) as [->|]; lia.
    + intros [dg q] (HLg & HNq & Hg & Hq). splits; auto.
      exists (fun u => D' u || (u =? cc)).
      assert (Hd2 : forall v, v < n -> dg.[v] = Z.of_nat (remdeg n Lp Li (fun u => D' u || (u =? cc)) v)).
      { intros v Hv. rewrite Hg, Hd' by auto.
        rewrite <- (remdeg_step n Lp Li D' cc v Hc HDc'). unfold mult. lia. }
      splits; auto.
      * intros v. rewrite orb_true_iff, Nat.eqb_eq, HD'. split.
        -- intros [[H1|[k [Hk Ek]]]|Ek]; auto.
           ++ right. exists k. split; [lia|auto].
           ++ right. exists l. split; [lia|auto].
        -- intros [H1|[k [Hk Ek]]]; auto. destruct (Nat.eq_dec k l) as [->|]; auto.
           left. right. exists k. split; [lia|auto].
      * intros v. rewrite Hq. split; intros (Hv & Hf & Hr); splits; auto.
        -- rewrite Hd2 in Hr by auto. lia.
        -- rewrite Hd2, Hr; auto.
  - intros [deg' dq'] (HL' & HN' & D' & Hd' & HD' & Hdq').
    assert (HDF : forall u, u < n -> D' u = F u).
    { intros u Hu. destruct (F u) eqn:Ef.
      - apply HD'. now apply HF.
      - destruct (D' u) eqn:Ed; auto. apply HD' in Ed. apply (HF u Hu) in Ed. congruence. }
    apply HQ; auto.
    + intros v Hv. rewrite Hd' by auto. f_equal. now apply remdeg_ext.
    + intros v. rewrite Hdq'. split; intros (Hv & Hf & Hr); splits; auto;
        rewrite <- Hr; [symmetry|]; now apply remdeg_ext.
Qed.

Definition QInv (s : lq_state) : Prop :=
  let '(mkLQ dq c col deg ptr lset) := s in
  length deg = n /\ n < length ptr /\ c <= col /\
  ptr.[0] = 0 /\ (forall l, l < c -> ptr.[l] < ptr.[S l]) /\ ptr.[c] = col /\
  NoDup dq /\
  exists D, qlisted D lset col /\
  (forall v, v < n -> deg.[v] = Z.of_nat (remdeg n Lp Li D v)) /\
  (forall v, In v dq <-> v < n /\ D v = false /\ remdeg n Lp Li D v = 1) /\
  (forall l k, l < c -> ptr.[l] <= k < ptr.[S l] -> depth_is E lset.[k] l) /\
  (forall v, v < n -> D v = false -> exists u, u < n /\ chain E u v c) /\
  (forall u v, E u v -> D v = true -> D u = true).

Lemma lq_round_wp s : QInv s -> lq_dq s <> [] ->
  wp (lq_round Lp Li s) (fun s' => QInv s' /\ n - lq_col s' < n - lq_col s).
Proof.
  destruct s as [dq c col deg ptr lset]. simpl.
  intros (HLd & HLp & Hcc & Hp0 & Hpm & Hpc & HN & D & L & Hdeg & Hdq & Hlev & Hun & Hcl) Hne.
  pose proof L as (V2 & V3 & V4 & V5 & V6).
  assert (Hlen : 0 < length dq) by (destruct dq; [congruence|simpl; lia]).
  unfold lq_round. simpl.
  wp1. apply (queue_drain_wp dq lset col D); auto.
  { intros v Hv. apply Hdq in Hv. tauto. }
  intros lset' F L' HLs Hpre Hnew HF. pose proof L' as (V2' & V3' & V4' & V5' & V6').
  wp1. wp1; [lia|]. wp1. wp1; [rewrite upd_length; lia|]. wp1. wp1; [rewrite upd_length; lia|].
  rewrite aget_upd_eq by lia. rewrite aget_upd_ne by lia. rewrite Nat.sub_0_r, Hpc.
  assert (Hnewin : forall k, col <= k < col + length dq -> In lset'.[k] dq).
  { intros k Hk. replace k with (col + (k - col)) by lia. rewrite Hnew by lia. apply aget_In. lia. }
  assert (Hpreds : forall v, In v dq -> forall u, E u v -> D u = true).
  { intros v Hv. apply Hdq in Hv. destruct Hv as (Hv & _ & Hr). apply (remdeg_one_iff n Lp Li D1 D v Hv); auto. }
  wp1. apply (queue_remove_wp F D); auto; try lia.
  { intros k Hk. apply Hnewin in Hk. apply Hdq in Hk. tauto. }
  { intros k k' Hk Hk'. apply V5'; lia. }
  { intros v Hv. rewrite HF. split; (intros [H1|H1]; [auto|right]).
    - apply In_aget in H1. destruct H1 as [i [Hi Ei]]. exists (col + i). split; [lia|].
      rewrite Hnew; auto.
    - destruct H1 as [k [Hk <-]]. auto. }
  { intros v Hv. split; [|tauto]. intros Hf. split; auto. apply HF in Hf.
    destruct Hf as [Hf|Hf].
    - apply (remdeg_one_iff n Lp Li D1 D v Hv). intros u Hu. apply (Hcl u v); auto.
    - apply Hdq in Hf. tauto. }
  { intros v Hv Hr. apply HF. destruct (D v) eqn:Ed; auto. right. apply Hdq. auto. }
  intros deg' dq' HLd' Hdeg' HN' Hdq'. apply wp_ret. simpl. split; [|lia].
  splits; auto; try lia.
  - rewrite upd_length. auto.
  - rewrite aget_upd_ne by lia. auto.
  - intros l Hl. rewrite !aget_upd by lia. destruct (Nat.eqb_spec l (S c)); [lia|].
    destruct (Nat.eqb_spec (S l) (S c)) as [El|]; [|apply Hpm; lia].
    injection El as ->. lia.
  - rewrite aget_upd_eq by lia. auto.
  - exists F. splits; auto.
    + intros l k Hl. rewrite !aget_upd by lia. destruct (Nat.eqb_spec l (S c)); [lia|].
      destruct (Nat.eqb_spec (S l) (S c)) as [El|].
      * injection El as ->. rewrite Hpc. intros Hk. pose proof (Hnewin k Hk) as Hin.
        pose proof Hin as Hin'. apply Hdq in Hin'. destruct Hin' as (Hkn & HkD & _). split.
        -- destruct (Hun lset'.[k] Hkn HkD) as [u [Hu Hch]]. eauto.
        -- intros u j Hch. inversion Hch as [|? w ? j' Hch' Hew]; subst; [lia|].
           pose proof (Hpreds _ Hin w Hew) as Hw.
           assert (Hwn : w < n) by (apply (wf_edge_lt n Lp Li W w lset'.[k]); auto).
           apply V6 in Hw; auto. destruct Hw as [kw [Hkw Ew]].
           destruct (bucket_exists (aget ptr) c kw) as [lw [Hlw Hkk]]; [lia|lia|].
           destruct (Hlev lw kw Hlw Hkk) as [_ Hdw]. rewrite Ew in Hdw.
           specialize (Hdw u j' Hch'). lia.
      * intros Hk. assert (Hkc : k < col).
        { assert (Pm' : forall i, i < c -> ptr.[i] <= ptr.[S i]) by (intros i Hi; specialize (Hpm i Hi); lia).
          pose proof (mono_le (aget ptr) c Pm' (S l) c ltac:(lia) ltac:(lia)). lia. }
        rewrite Hpre by auto. apply Hlev; [lia|auto].
    + intros v Hv Hv'. assert (Hvf : D v = false).
      { destruct (D v) eqn:Ev; auto. rewrite (proj2 (HF v)) in Hv'; auto. }
      assert (Hd1 : remdeg n Lp Li D v <> 1).
      { intros H1. rewrite (proj2 (HF v)) in Hv'; [discriminate|]. right. apply Hdq. auto. }
      destruct (remdeg_not_one n Lp Li D1 D v Hv Hd1) as [u [Hu1 Hu2]].
      destruct (Hun u) as [w [Hw Hch]]; auto; [apply Hu1|].
      exists w. split; auto. econstructor; eauto.
    + intros u v Hu Hv. apply HF. left. apply HF in Hv. destruct Hv as [Hv|Hv]; eauto.
Qed.

(** on acyclic graphs the queue variant also handles the full chain *)
Lemma queue_total levelPtr levelSet :
  n < length levelPtr -> n <= length levelSet -> levelPtr.[0] = 0 -> acyclic E ->
  exists k ptr lset, buildLevelSet_CSC_Queue n Lp Li levelPtr levelSet = Ok (k, (ptr, lset)) /\
    level_partition n k ptr lset /\ (forall l, l < k -> ptr.[l] < ptr.[S l]) /\
    (forall l i, l < k -> ptr.[l] <= i < ptr.[S l] -> depth_is E lset.[i] l) /\ k < length ptr /\ n <= length lset.
Proof.
  intros HP HS H0 HA.
  assert (G : wp (buildLevelSet_CSC_Queue n Lp Li levelPtr levelSet) (fun r =>
    let '(k, (ptr, lset)) := r in
    level_partition n k ptr lset /\ (forall l, l < k -> ptr.[l] < ptr.[S l]) /\
    (forall l i, l < k -> ptr.[l] <= i < ptr.[S l] -> depth_is E lset.[i] l) /\ k < length ptr /\ n <= length lset)).
  2:{ apply wp_ok in G. destruct G as [[k [ptr lset]] [Er G]]. exists k, ptr, lset. auto. }
  unfold buildLevelSet_CSC_Queue.
  wp1. apply init_degree_wp; auto. intros deg HLd Hdeg.
  wp1. apply (queue_init_wp deg (fun _ => false)); auto. intros dq HN Hdq.
  wp1. apply (wp_while QInv (fun s => n - lq_col s)).
  - simpl. splits; auto; try (intros; lia). exists (fun _ => false). splits; auto.
    + unfold qlisted. splits; auto; try (intros; lia). intros v Hv. split; [discriminate|].
      intros [k [Hk _]]. lia.
    + intros v. rewrite Hdq. tauto.
    + intros; lia.
    + intros v Hv _. exists v. split; auto. constructor.
  - simpl. lia.
  - intros s HI. apply wp_ret. destruct (Nat.eqb_spec (length (lq_dq s)) 0) as [El|El]; simpl.
    + destruct s as [q c col dg ptr lset]. simpl in *.
      destruct HI as (HLd' & HLp & Hcc & Hp0 & Hpm & Hpc & HN' & D & L & Hdeg' & Hdq' & Hlev & Hun & Hcl).
      destruct L as (V2 & V3 & V4 & V5 & V6).
      assert (Hall : forall v, v < n -> D v = true).
      { intros v Hv. destruct (D v) eqn:Ed; auto. exfalso.
        assert (Hw : forall m, exists w, w < n /\ D w = false /\ chain E w v m).
        { induction m as [|m (w & Hw & HDw & Hch)]; [exists v; splits; auto; constructor|].
          assert (Hr : remdeg n Lp Li D w <> 1).
          { intros Hr. assert (In w q) by (apply Hdq'; auto). destruct q; [auto|discriminate]. }
          destruct (remdeg_not_one n Lp Li D1 D w Hw Hr) as [u [Hu1 Hu2]].
          exists u. splits; auto; [apply Hu1|]. eapply chain_cons; eauto. }
        destruct (Hw n) as (w & Hwn & _ & Hch).
        destruct (long_walk n E w v n) as (x & k & Hx); auto.
        - now apply edge_bounds.
        - apply (HA x k Hx). }
      assert (Ecol : col = n).
      { assert (n <= length (map (aget lset) (seq 0 col))).
        { rewrite <- (seq_length n 0) at 1. apply NoDup_incl_length; [apply seq_NoDup|].
          intros v Hv. apply in_seq in Hv.
          destruct (proj1 (V6 v ltac:(lia)) (Hall v ltac:(lia))) as [k [Hk Ek]].
          apply in_map_iff. exists k. split; auto. apply in_seq. lia. }
        rewrite map_length, seq_length in H. lia. }
      unfold level_partition. splits; auto; try lia.
      * intros l Hl. specialize (Hpm l Hl). lia.
      * intros i Hi. apply V4. lia.
      * intros i j Hi Hj. apply V5; lia.
    + apply lq_round_wp; auto. destruct (lq_dq s); simpl in *; congruence.
Qed.
End Queue.
