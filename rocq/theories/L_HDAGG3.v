(** Proofs about the greedy window search, part 3: the search and the two drivers. *)
From Verif Require Import Base Lib Lib2 Spec M_LevelSet L_LevelSet L_LevelSet2 M_CC L_CC M_Sched L_Sched L_Sched2
  M_HDAGG L_HDAGG L_HDAGG2.
From Coq Require Import ZifyBool ZifyNat.

(** ** The level-set builder keeps the lengths of the caller's arrays *)
Lemma scan_level_length b e1 cur deg vis lset n2l col :
  pc (scan_level b e1 cur deg (vis, lset, n2l, col))
     (fun '(vis', lset', n2l', _) => length lset' = length lset /\ length n2l' = length n2l).
Proof.
  unfold scan_level. apply (pc_for (fun '(vis', lset', n2l', _) => length lset' = length lset /\ length n2l' = length n2l)).
  - auto.
  - intros i [[[vis' lset'] n2l'] col'] [H1 H2]. apply pc_bind, pc_any. intros d. apply pc_bind, pc_any. intros v.
    destruct ((d =? 1)%Z && negb v).
    + apply pc_bind, pc_any. intros vis2. apply pc_bind, pc_wr. intros lset2 H3. apply pc_bind, pc_wr. intros n2l2 H4.
      apply pc_ret. split; congruence.
    + apply pc_ret. auto.
Qed.

Lemma build_levelSet_lengths n Lp Li levelPtr levelSet n2l :
  pc (build_levelSet_CSC n Lp Li levelPtr levelSet n2l)
     (fun '(_, (ptr, lset, n2l')) => length ptr = length levelPtr /\ length lset = length levelSet /\ length n2l' = length n2l).
Proof.
  unfold build_levelSet_CSC. apply pc_bind, pc_any. intros deg. apply pc_bind.
  eapply pc_mono; [apply (pc_while (fun s => length (ls_ptr s) = length levelPtr /\ length (ls_set s) = length levelSet /\
     length (ls_n2l s) = length n2l))|].
  - simpl. auto.
  - intros s (H1 & H2 & H3). unfold ls_round. apply pc_bind. eapply pc_mono; [apply scan_level_length|].
    intros (((vis & lset) & n2l') & col) [H4 H5].
    destruct (n <=? S (ls_cur s)).
    + apply pc_ret. simpl. splits; congruence.
    + apply pc_bind, pc_wr. intros ptr H6. apply pc_bind, pc_any. intros b. apply pc_bind, pc_any. intros e1.
      apply pc_bind, pc_any. intros lo. apply pc_bind, pc_any. intros hi. apply pc_bind, pc_any. intros dg.
      apply pc_ret. simpl. splits; congruence.
  - intros s H. apply pc_ret. exact H.
Qed.

Lemma wp_imp {A} (m : res A) (P : Prop) (R T : A -> Prop) :
  wp m R -> (P -> wp m T) -> wp m (fun r => R r /\ (P -> T r)).
Proof. destruct m as [a|e]; simpl; auto. Qed.

Section SearchProof.
Variables (below : nat -> nat -> nat -> bool) (accept : nat -> nat -> bool).

Variables (n k : nat) (DAG_ptr DAG_set level_ptr level_set n2l node_cost : list nat).
Notation E := (edge n DAG_ptr DAG_set).
Hypothesis W : wf_csc n DAG_ptr DAG_set.
Hypothesis LP : level_partition n k level_ptr level_set.
Hypothesis HLp : k < length level_ptr.
Hypothesis HLs : n <= length level_set.
Hypothesis HLn : n <= length n2l.
Hypothesis HN2L : forall l v, l < k -> in_level level_ptr level_set l v -> n2l.[v] = l.
Hypothesis HE : forall u v, E u v -> n2l.[u] < n2l.[v].
Hypothesis HPred : forall v, v < n -> 0 < n2l.[v] -> exists u, E u v /\ S n2l.[u] = n2l.[v].
Hypothesis HLc : n <= length node_cost.
Variable cores : nat.

(** positive costs and a comparison with the two properties balancing relies on *)
Definition pos_mode : Prop :=
  (forall x, x < n -> 0 < node_cost.[x]) /\
  (forall num den, 0 < num -> 0 < den -> below 0 num den = true) /\
  (forall a num, below a num 1 = (a <? num)).
Hypothesis HC1 : 2 <= cores \/ (cores = 1 /\ pos_mode).

Lemma bal_wp part_cnt total pcost chunk (Q : _ -> Prop) : part_cnt <= length pcost ->
  (pos_mode -> forall q, q < part_cnt -> 0 < pcost.[q]) -> sum_r 0 part_cnt (aget pcost) = total ->
  length chunk = S cores -> chunk.[0] = 0 ->
  (forall chunk' cost, length cost = cores -> length chunk' = S cores -> chunk'.[0] = 0 ->
     (pos_mode -> chunk_ok cores part_cnt chunk') -> Q (chunk', cost)) ->
  wp (balance below cores part_cnt total pcost chunk) Q.
Proof.
  intros H1 H2 H3 H4 H5 HQ.
  assert (G : pos_mode -> wp (balance below cores part_cnt total pcost chunk)
     (fun '(chunk', cost) => length cost = cores /\ chunk_ok cores part_cnt chunk')).
  { intros P. pose proof P as (P1 & P2 & P3). apply (balance_wp below P2 P3); auto. lia. }
  eapply wp_mono; [apply (wp_imp _ pos_mode (fun '(chunk', cost) => length cost = cores /\ length chunk' = S cores /\ chunk'.[0] = 0)
      (fun '(chunk', cost) => length cost = cores /\ chunk_ok cores part_cnt chunk'))|].
  - destruct HC1 as [H|[H P]].
    + apply balance_safe_wp; auto.
    + eapply wp_mono; [apply (G P)|]. intros (c & d) (X1 & X2 & X3 & _). auto.
  - exact G.
  - intros (c & d) ((X1 & X2 & X3) & X4). apply HQ; auto. intros P. now apply X4.
Qed.

Notation wnd := (win_nodes level_ptr level_set).
Notation labels a b m := (cc_labels n DAG_ptr DAG_set (wnd a b) (repeat n n) m).
Notation comps a b K := (n_components (edge_within E (wnd a b)) (wnd a b) K).

Lemma s_win_iff a b x : a <= b -> b <= k -> x < n -> (In x (wnd a b) <-> a <= n2l.[x] < b).
Proof. exact (win_iff n k DAG_ptr DAG_set level_ptr level_set n2l LP HLp HLs HLn HN2L HE a b x). Qed.
Lemma s_wlt a b x : a <= b -> b <= k -> In x (wnd a b) -> x < n.
Proof. exact (wlt n k DAG_ptr DAG_set level_ptr level_set n2l LP HLp HLs HLn HN2L HE a b x). Qed.

(** one more level never adds components *)
Lemma comps_mono lb b K K' : lb < b -> S b <= k -> comps lb b K -> comps lb (S b) K' -> K' <= K.
Proof.
  intros H1 H2 HK HK'. eapply n_components_mono; eauto.
  - intros u v (He & Hu & Hv). pose proof (s_wlt lb b u ltac:(lia) ltac:(lia) Hu). pose proof (s_wlt lb b v ltac:(lia) ltac:(lia) Hv).
    apply s_win_iff in Hu; auto; try lia. apply s_win_iff in Hv; auto; try lia.
    unfold edge_within. splits; auto; apply s_win_iff; auto; lia.
  - intros x Hx. pose proof (s_wlt lb (S b) x ltac:(lia) ltac:(lia) Hx) as Hxn. pose proof Hx as Hx'.
    apply s_win_iff in Hx'; auto; try lia.
    destruct (lt_dec n2l.[x] b) as [Hlt|Hge].
    + exists x. split; [apply s_win_iff; auto; lia|constructor].
    + destruct (HPred x Hxn ltac:(lia)) as (u & He & Hu). pose proof (wf_edge_lt _ _ _ W u x He) as [Hun _].
      exists u. split; [apply s_win_iff; auto; lia|]. apply conn_sym, conn_edge. unfold edge_within.
      splits; auto. apply s_win_iff; auto; lia.
Qed.

Definition row_ok (lb ub : nat) (row : list nat) : Prop :=
  length row = S cores /\ (forall i, i < cores -> row.[i] <= row.[S i]) /\
  (forall K, comps lb ub K -> K <= row.[cores]).

Lemma row_exact lb ub K row : comps lb ub K -> chunk_ok cores K row -> row_ok lb ub row.
Proof.
  intros HK (H1 & H2 & H3 & H4). unfold row_ok. splits; auto. intros K' HK'. rewrite H4.
  pose proof (n_components_unique _ _ _ _ HK HK'). lia.
Qed.

Section OneWindow.
Variables (lb widx : nat) (sizes : list (list nat)).
Hypothesis Hlb : lb < k.
Hypothesis Hwidx : widx < length sizes.

Definition SInv (s : sw) : Prop :=
  length (w_sizes s) = length sizes /\ (forall i, i <> widx -> (w_sizes s).[i] = sizes.[i]) /\ w_eff s <= cores /\
  if w_done s then
    lb < w_cand s <= k /\ labels lb (w_cand s) (w_acc s) /\ (pos_mode -> row_ok lb (w_cand s) (w_sizes s).[widx])
  else
    length (w_chunk s) = S cores /\ (w_chunk s).[0] = 0 /\ labels lb (w_computed s) (w_n2p s) /\
    ((w_iter s = 0 /\ w_computed s = lb /\ w_ub s = S lb /\ w_cand s = S lb /\ w_prev s = 0) \/
     (1 <= w_iter s /\ lb < w_computed s <= k /\ w_ub s = min (w_computed s + 1) k /\ w_prev s = w_ub s /\
      w_cand s = w_computed s /\ w_acc s = w_n2p s /\
      exists K, comps lb (w_computed s) K /\ (pos_mode -> chunk_ok cores K (w_chunk s)))).

Definition smeas (s : sw) : nat := if w_done s then 0 else S (k - w_computed s).

Lemma search_step_wp s : SInv s -> w_done s = false ->
  wp (search_step below accept n DAG_ptr DAG_set level_ptr level_set n2l node_cost cores k lb widx s)
     (fun s' => SInv s' /\ smeas s' < smeas s).
Proof.
  intros (I1 & I2 & I3 & HI) Hd. rewrite Hd in HI. destruct HI as (J1 & J2 & J3 & HJ).
  unfold smeas at 2. rewrite Hd. unfold search_step.
  destruct s as [n2p acc chunk szs computed prev cand ub iter eff done].
  cbn [w_n2p w_acc w_chunk w_sizes w_computed w_prev w_cand w_ub w_iter w_eff w_done] in *. subst done.
  assert (Hub : lb < ub <= k /\ lb <= computed <= ub /\ (computed = k -> ub = k /\ prev = k) /\ (computed < k -> ub = S computed)) by lia.
  destruct Hub as (U1 & U2 & U3 & U4).
  wp1. wp1; [lia|]. wp1. wp1; [lia|]. wp1. wp1; [lia|].
  set (eff' := if (ub - lb =? 1) && (level_ptr.[ub] - level_ptr.[ub - 1] <? cores)
               then level_ptr.[ub] - level_ptr.[ub - 1]
               else if eff <? level_ptr.[ub] - level_ptr.[ub - 1] then cores else eff).
  assert (Heff : eff' <= cores).
  { unfold eff'. destruct ((ub - lb =? 1) && (level_ptr.[ub] - level_ptr.[ub - 1] <? cores)) eqn:Eb.
    - apply andb_true_iff in Eb. destruct Eb as [_ Eb]. apply Nat.ltb_lt in Eb. lia.
    - destruct (eff <? level_ptr.[ub] - level_ptr.[ub - 1]); lia. }
  clearbody eff'.
  wp1. apply (computeCC_wp n k DAG_ptr DAG_set level_ptr level_set n2l node_cost W LP HLp HLs HLn HN2L HE HLc lb computed ub); auto; try lia.
  intros (((m' & cnt) & pcost) & total) (C1 & C2 & C3 & C4 & C5 & C6).
  wp1. apply (bal_wp cnt total pcost); auto; try lia.
  { intros (P & _). auto. }
  intros chunk' cost L1 K1 K2 CK. wp1.
  apply (wp_for (fun _ _ => True)); auto; try lia.
  { intros i s Hi _. apply wp_rd; auto. lia. }
  intros x _. clear x. pose proof (fun P => row_exact lb ub cnt chunk' C2 (CK P)) as RE.
  set (sizes1 := upd szs widx chunk) in *.
  assert (S1 : length sizes1 = length sizes /\ (forall i, i <> widx -> sizes1.[i] = sizes.[i]) /\ sizes1.[widx] = chunk).
  { unfold sizes1. rewrite upd_length. splits; auto.
    - intros i Hi. rewrite aget_upd_ne by auto. auto.
    - apply aget_upd_eq. lia. }
  destruct S1 as (S1 & S2 & S3).
  assert (S1' : length (upd sizes1 widx chunk') = length sizes /\ (forall i, i <> widx -> (upd sizes1 widx chunk').[i] = sizes.[i]) /\
                (upd sizes1 widx chunk').[widx] = chunk').
  { rewrite upd_length. splits; auto.
    - intros i Hi. rewrite aget_upd_ne by auto. auto.
    - apply aget_upd_eq. lia. }
  destruct S1' as (T1 & T2 & T3).
  destruct (accept lb (S iter)).
  - destruct (Nat.eqb_spec prev (min (ub + 1) k)) as [Ef|Ef].
    + (* the last level has been reached *)
      destruct HJ as [HJ|(X1 & X2 & X3 & X4 & X5 & X6 & K & X7 & X8)]; [lia|].
      assert (Eub : ub = k) by lia.
      wp1. destruct (Nat.eqb_spec (S iter) 1) as [E1|E1]; [lia|]. cbv iota. simpl andb. apply wp_ret. apply wp_ret.
      unfold SInv, smeas. cbn [w_n2p w_acc w_chunk w_sizes w_computed w_prev w_cand w_ub w_iter w_eff w_done].
      split; [|lia]. splits; auto; try lia. rewrite S3. intros P. specialize (X8 P).
      destruct (Nat.eq_dec computed k) as [Ec|Ec].
      * rewrite Eub. rewrite <- Ec. eapply row_exact; eauto.
      * assert (ub = S computed) as -> by lia.
        destruct X8 as (Y1 & Y2 & Y3 & Y4). unfold row_ok. splits; auto.
        intros K' HK'. rewrite Y4. eapply (comps_mono lb computed); eauto; lia.
    + wp1. simpl andb. apply wp_ret. apply wp_ret.
      unfold SInv, smeas. cbn [w_n2p w_acc w_chunk w_sizes w_computed w_prev w_cand w_ub w_iter w_eff w_done].
      assert (Hcl : computed < k) by (destruct (lt_dec computed k); auto; lia).
      split; [|lia]. splits; auto; try lia. right. splits; auto; try lia. exists cnt. auto.
  - wp1. destruct (Nat.eqb_spec (S iter) 1) as [E1|E1].
    + destruct HJ as [(X1 & X2 & X3 & X4 & X5)|HJ]; [|lia]. wp1; [lia|]. apply wp_ret.
      unfold SInv, smeas. cbn [w_n2p w_acc w_chunk w_sizes w_computed w_prev w_cand w_ub w_iter w_eff w_done].
      split; [|lia]. rewrite X4. rewrite X3 in C1, RE. splits; auto; try lia. now rewrite T3.
    + destruct HJ as [HJ|(X1 & X2 & X3 & X4 & X5 & X6 & K & X7 & X8)]; [lia|]. apply wp_ret. apply wp_ret.
      unfold SInv, smeas. cbn [w_n2p w_acc w_chunk w_sizes w_computed w_prev w_cand w_ub w_iter w_eff w_done].
      split; [|lia]. subst cand acc. splits; auto; try lia. rewrite S3. intros P. eapply row_exact; eauto.
Qed.

Lemma search_window_wp (Q : sw -> Prop) :
  (forall s, length (w_sizes s) = length sizes -> (forall i, i <> widx -> (w_sizes s).[i] = sizes.[i]) ->
     lb < w_cand s <= k -> labels lb (w_cand s) (w_acc s) -> (pos_mode -> row_ok lb (w_cand s) (w_sizes s).[widx]) -> Q s) ->
  wp (search_window below accept n DAG_ptr DAG_set level_ptr level_set n2l node_cost cores k lb widx sizes) Q.
Proof.
  intros HQ. unfold search_window. apply (wp_while SInv smeas).
  - unfold SInv. cbn [w_n2p w_acc w_chunk w_sizes w_computed w_prev w_cand w_ub w_iter w_eff w_done].
    splits; auto; try lia.
    + apply repeat_length.
    + exact (labels_init n k DAG_ptr DAG_set level_ptr level_set n2l node_cost HLp HLs HLn HN2L HE HLc lb).
  - unfold smeas. cbn [w_done w_computed]. lia.
  - intros s HI. apply wp_ret. destruct (w_done s) eqn:Ed; simpl.
    + destruct HI as (I1 & I2 & I3 & HI). rewrite Ed in HI. destruct HI as (J1 & J2 & J3). now apply HQ.
    + now apply search_step_wp.
Qed.

End OneWindow.

(** the cut points found so far *)
Definition WInv (WM : list nat) (sizes : list (list nat)) (lvl : nat) : Prop :=
  0 < length WM /\ WM.[0] = 0 /\ (forall i, S i < length WM -> WM.[i] < WM.[S i]) /\
  WM.[length WM - 1] = lvl /\ lvl <= k /\ length sizes = k /\
  (pos_mode -> forall i, S i < length WM -> row_ok WM.[i] WM.[S i] sizes.[i]).

Lemma WInv_len WM sizes lvl : WInv WM sizes lvl -> length WM - 1 <= lvl.
Proof.
  intros (H1 & H2 & H3 & H4 & _). rewrite <- H4. clear -H1 H3.
  assert (G : forall i, i < length WM -> i <= WM.[i]).
  { induction i as [|i IH]; intros Hi; [lia|]. specialize (IH ltac:(lia)). specialize (H3 i Hi). lia. }
  apply G. lia.
Qed.

Lemma WInv_init : WInv [0] (repeat [] k) 0.
Proof. unfold WInv, aget. simpl. splits; auto; try (intros; lia). apply repeat_length. Qed.

Lemma WInv_snoc WM sizes lvl sizes' c : WInv WM sizes lvl -> lvl < c <= k ->
  length sizes' = length sizes -> (forall i, i <> length WM - 1 -> sizes'.[i] = sizes.[i]) ->
  (pos_mode -> row_ok lvl c sizes'.[length WM - 1]) -> WInv (WM ++ [c]) sizes' c.
Proof.
  intros (H1 & H2 & H3 & H4 & H5 & H6 & H7) Hc L1 L2 R.
  assert (G : forall i, i < length WM -> (WM ++ [c]).[i] = WM.[i]) by (intros; now apply aget_app1).
  assert (G' : (WM ++ [c]).[length WM] = c) by apply aget_app_last.
  unfold WInv. rewrite app_length. simpl. splits; auto; try lia.
  - rewrite G by lia. auto.
  - intros i Hi. destruct (Nat.eq_dec (S i) (length WM)) as [Ei|Ei].
    + rewrite Ei, G', G by lia. replace i with (length WM - 1) by lia. lia.
    + rewrite !G by lia. apply H3. lia.
  - replace (length WM + 1 - 1) with (length WM) by lia. auto.
  - intros P i Hi. destruct (Nat.eq_dec (S i) (length WM)) as [Ei|Ei].
    + rewrite Ei, G', G by lia. replace i with (length WM - 1) by lia. rewrite H4. auto.
    + rewrite !G by lia. rewrite L2 by lia. apply H7; auto. lia.
Qed.

Lemma search_all_wp (Q : _ -> Prop) :
  (forall WM sizes, WInv WM sizes k -> Q (WM, sizes)) ->
  wp (search_all below accept n DAG_ptr DAG_set level_ptr level_set n2l node_cost cores k) Q.
Proof.
  intros HQ. unfold search_all. wp1.
  apply (wp_while (fun st => let '(WM, sizes, lvl) := st in WInv WM sizes lvl) (fun st => k - snd st)).
  - apply WInv_init.
  - simpl. lia.
  - intros ((WM & sizes) & lvl) HI. apply wp_ret. destruct (Nat.ltb_spec lvl k) as [Hl|Hl].
    + pose proof (WInv_len _ _ _ HI) as Hlen. pose proof HI as (_ & _ & _ & _ & _ & H6 & _).
      wp1. apply search_window_wp; auto; try lia. intros s L1 L2 Hc _ R. apply wp_ret. simpl. split; [|lia].
      eapply WInv_snoc; eauto.
    + apply wp_ret. apply HQ. assert (lvl = k) as -> by (destruct HI as (_ & _ & _ & _ & ? & _); lia). auto.
Qed.

(** ** GLC_V2 *)
Lemma glc_parts_wp lb ub acc (Q : _ -> Prop) : lb <= ub -> ub <= k -> labels lb ub acc ->
  (forall pp np, win_base (wnd lb ub) pp np -> win_same (connected (edge_within E (wnd lb ub))) pp np -> win_order E np ->
     comps lb ub (length pp - 1) -> Q (pp, np)) ->
  wp (glc_parts n level_ptr level_set lb ub acc) Q.
Proof.
  intros H1 H2 HL HQ. unfold glc_parts. wp1.
  apply (sub_nodes_wp n k DAG_ptr DAG_set level_ptr level_set n2l node_cost LP HLp HLs HLn HN2L HE HLc); auto.
  exact (sort_by_label_wp n k DAG_ptr DAG_set level_ptr level_set n2l LP HLp HLs HLn HN2L HE lb ub acc Q H1 H2 HL HQ).
Qed.

Lemma glc_all_wp (bin_pack : bool) (Q : _ -> Prop) : (bin_pack = true -> pos_mode) ->
  (forall WM sizes clp cpp cnp, WInv WM sizes k ->
     CInv E True (fun l => wnd WM.[l] WM.[S l]) (length WM - 1) clp cpp cnp -> Q (WM, clp, cpp, cnp)) ->
  wp (glc_all below accept n DAG_ptr DAG_set level_ptr level_set n2l node_cost cores k bin_pack) Q.
Proof.
  intros HBP HQ. unfold glc_all. wp1.
  apply (wp_while (fun st => let '(WM, sizes, lvl, clp, cpp, cnp) := st in
     WInv WM sizes lvl /\ CInv E True (fun l => wnd WM.[l] WM.[S l]) (length WM - 1) clp cpp cnp)
     (fun st => let '(WM, sizes, lvl, clp, cpp, cnp) := st in k - lvl)).
  - split; [apply WInv_init|]. apply CInv_init.
  - lia.
  - intros (((((WM & sizes) & lvl) & clp) & cpp) & cnp) (HI & HC). apply wp_ret. destruct (Nat.ltb_spec lvl k) as [Hl|Hl].
    + pose proof (WInv_len _ _ _ HI) as Hlen. pose proof HI as (W1 & W2 & W3 & W4 & W5 & W6 & W7).
      wp1. apply search_window_wp; auto; try lia. intros s L1 L2 Hc HL R.
      set (WM' := WM ++ [w_cand s]).
      assert (G : forall i, i < length WM -> WM'.[i] = WM.[i]) by (intros; now apply aget_app1).
      assert (G' : WM'.[length WM] = w_cand s) by apply aget_app_last.
      assert (LM : length WM' = S (length WM)) by (unfold WM'; rewrite app_length; simpl; lia).
      assert (HI' : WInv WM' (w_sizes s) (w_cand s)) by (eapply WInv_snoc; eauto).
      set (Wf := fun l => wnd WM'.[l] WM'.[S l]).
      assert (HC' : CInv E True Wf (length WM - 1) clp cpp cnp).
      { assert (Em : forall m, m <= length WM - 1 ->
           map (fun l => wnd WM.[l] WM.[S l]) (seq 0 m) = map Wf (seq 0 m)).
        { intros m Hm. apply map_ext_in. intros l Hin. apply in_seq in Hin. unfold Wf. now rewrite !G by lia. }
        destruct HC as (C1 & C2 & C3 & C4 & C5 & C6 & C7 & C8 & C9 & C10). unfold CInv. splits; auto.
        - rewrite <- Em by lia. auto.
        - intros l k0 Hl0 Hk0. unfold Wf. rewrite !G by lia. auto. }
      wp1. wp1; [lia|]. wp1. wp1; [lia|]. rewrite LM. simpl Nat.sub. rewrite Nat.sub_0_r, G'.
      rewrite (G (length WM - 1)) by lia. rewrite W4.
      wp1. apply glc_parts_wp; auto; try lia. intros pp np B HS HO HK.
      assert (EWf : Wf (length WM - 1) = wnd lvl (w_cand s)).
      { unfold Wf. rewrite G, W4 by lia. replace (S (length WM - 1)) with (length WM) by lia. now rewrite G'. }
      rewrite <- EWf in B, HS, HK.
      assert (HS' : win_same E pp np).
      { intros a b Ha Hb He. apply HS; auto. destruct B as (_ & _ & _ & _ & _ & B6).
        apply conn_edge. unfold edge_within. splits; auto; (eapply Permutation_in; [exact B6|now apply aget_In]). }
      pose proof B as (B1' & B2 & B3 & B4 & B5 & B6). rewrite EWf in HK.
      assert (Fin : forall clp' cpp', CInv E True Wf (S (length WM - 1)) clp' cpp' (cnp ++ np) ->
        wp (Ok (WM', w_sizes s, w_cand s, clp', cpp', cnp ++ np))
          (fun st => (let '(WM0, sizes0, lvl0, clp0, cpp0, cnp0) := st in
             WInv WM0 sizes0 lvl0 /\ CInv E True (fun l => wnd WM0.[l] WM0.[S l]) (length WM0 - 1) clp0 cpp0 cnp0) /\
             (let '(_, _, lvl0, _, _, _) := st in k - lvl0) < k - lvl)).
      { intros clp' cpp' HCC. apply wp_ret. split; [|lia]. split; auto. rewrite LM.
        replace (S (length WM) - 1) with (S (length WM - 1)) by lia. exact HCC. }
      wp1. destruct bin_pack.
      * destruct (R (HBP eq_refl)) as (R1 & R2 & R3). specialize (R3 _ HK).
        wp1. wp1; [destruct HI' as (_ & _ & _ & _ & _ & ? & _); lia|].
        replace (length WM - 1) with (length WM - 1) by lia.
        wp1. apply merge_parts_wp; auto; try lia.
        { intros i Hi. apply R2. lia. }
        intros mg M1 M2 M3 M4 M5.
        assert (BM : win_base (Wf (length WM - 1)) mg np).
        { unfold win_base. rewrite M1. simpl. rewrite Nat.sub_0_r. splits; auto; try lia.
          intros q Hq. apply M3. lia. }
        assert (SM : win_same E mg np).
        { intros a b Ha Hb HR. destruct (HS' a b Ha Hb HR) as (q & Hq & Q1 & Q2).
          destruct (M5 q Hq) as (i & Hi & Q3 & Q4). exists i. splits; lia. }
        eapply CInv_append_level; [exact HC'|lia|]. intros clp' cpp' HA. apply Fin. apply HA; auto.
      * eapply CInv_append_level; [exact HC'|lia|]. intros clp' cpp' HA. apply Fin. apply HA; auto.
    + apply wp_ret. eapply HQ; eauto. assert (lvl = k) as <- by (destruct HI as (_ & _ & _ & _ & ? & _); lia). exact HI.
Qed.

End SearchProof.
