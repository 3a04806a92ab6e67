(** Proofs about computePostOrder: a topological permutation. *)
From Verif Require Import Base Lib Lib2 Spec M_PostOrder.
From Coq Require Import ZifyBool ZifyNat.

Section PO.
Variables (n : nat) (Lp Li : list nat).
Hypothesis W : wf_csc n Lp Li.
Hypothesis DF : diag_first n Lp Li.
Notation E := (edge n Lp Li).
Hypothesis AC : acyclic E.

Lemma child_edge u k : u < n -> Lp.[u] < k < Lp.[S u] -> E u Li.[k].
Proof.
  intros Hu Hk. unfold edge. splits; auto.
  - exists k. split; [lia|auto].
  - destruct (DF u Hu) as (_ & _ & H). specialize (H k Hk). auto.
Qed.

Lemma edge_child u v : E u v -> u < n /\ exists k, Lp.[u] < k < Lp.[S u] /\ Li.[k] = v.
Proof.
  intros (Hu & (k & Hk & Ek) & Hne). split; auto. exists k. split; auto.
  destruct (DF u Hu) as (_ & H & _). assert (k <> Lp.[u]) by congruence. lia.
Qed.

Lemma po_indegree_wp (Q : list nat -> Prop) :
  (forall deg, length deg = n -> (forall v, v < n -> (0 < deg.[v] <-> exists u, E u v)) -> Q deg) ->
  wp (po_indegree n Lp Li) Q.
Proof.
  intros HQ. unfold po_indegree. pose proof (wf_Lp_len n Lp Li W).
  set (P := fun i v => exists u k, u < i /\ Lp.[u] < k < Lp.[S u] /\ Li.[k] = v).
  apply (wp_for (fun i deg => length deg = n /\ forall v, v < n -> (0 < deg.[v] <-> P i v))).
  - lia.
  - split; [apply repeat_length|]. intros v Hv. rewrite aget_repeat by auto. split; [lia|].
    intros (u & k & Hu & _). lia.
  - intros i deg Hi [HL HD]. wp1. wp1; [lia|]. wp1. wp1; [lia|].
    pose proof (wf_Lp_mono n Lp Li W i (S i) ltac:(lia) ltac:(lia)).
    destruct (DF i ltac:(lia)) as (Hne & _).
    apply (wp_for (fun cp deg => length deg = n /\ forall v, v < n ->
       (0 < deg.[v] <-> P i v \/ exists k, Lp.[i] < k < cp /\ Li.[k] = v))).
    + lia.
    + split; auto. intros v Hv. rewrite HD by auto. split; [auto|]. intros [?|(k & Hk & _)]; auto. lia.
    + intros cp dg Hcp [HL' HD']. destruct (wf_col_lt n Lp Li W i cp ltac:(lia) ltac:(lia)) as [Hc1 Hc2].
      pose proof (wf_Li_lt n Lp Li W cp Hc2). wp1. wp1; [lia|]. wp1. wp1; [lia|]. wp1; [lia|].
      rewrite upd_length. split; auto. intros v Hv. rewrite aget_upd by lia.
      destruct (Nat.eqb_spec v Li.[cp]) as [->|Hn].
      * split; [|lia]. intros _. right. exists cp. split; [lia|auto].
      * rewrite HD' by auto. split.
        -- intros [?|(k & Hk & Ek)]; auto. right. exists k. split; [lia|auto].
        -- intros [?|(k & Hk & Ek)]; auto. right. exists k. split; auto.
           assert (k <> cp) by congruence. lia.
    + intros dg [HL' HD']. split; auto. intros v Hv. rewrite HD' by auto. unfold P. split.
      * intros [(u & k & Hu & Hk)|(k & Hk & Ek)]; [exists u, k; split; [lia|auto]|exists i, k; auto].
      * intros (u & k & Hu & Hk & Ek). destruct (Nat.eq_dec u i) as [->|]; [right; eauto|].
        left. exists u, k. splits; auto; lia.
  - intros deg [HL HD]. apply HQ; auto. intros v Hv. rewrite HD by auto. split.
    + intros (u & k & Hu & Hk & <-). exists u. now apply child_edge.
    + intros (u & He). apply edge_child in He. destruct He as (Hu & k & Hk & Ek). exists u, k. auto.
Qed.

Lemma po_leaves_wp deg (Q : list nat -> Prop) : length deg = n ->
  (forall ls, NoDup ls -> (forall v, In v ls <-> v < n /\ deg.[v] = 0) -> Q ls) ->
  wp (po_leaves n deg) Q.
Proof.
  intros HL HQ. unfold po_leaves.
  apply (wp_for (fun i ls => NoDup ls /\ forall v, In v ls <-> v < i /\ deg.[v] = 0)).
  - lia.
  - split; [constructor|]. intros v; simpl; lia.
  - intros i ls Hi [HN HI]. wp1. wp1; [lia|]. apply wp_ret.
    destruct (Nat.eqb_spec deg.[i] 0) as [E0|E0].
    + split.
      * apply NoDup_snoc; auto. rewrite HI. lia.
      * intros v. rewrite in_app_iff, HI. simpl. split.
        -- intros [[? ?]|[<-|[]]]; split; (lia || auto).
        -- intros [? ?]. destruct (Nat.eq_dec v i) as [->|]; auto. left. split; [lia|auto].
    + split; auto. intros v. rewrite HI. split; [intros []; split; [lia|auto]|].
      intros [? ?]. split; auto. assert (v <> i) by congruence. lia.
  - intros ls [HN HI]. apply HQ; auto.
Qed.

Definition DInv (L : nat -> Prop) (vis : list bool) (stack po : list nat) (cnt : nat) : Prop :=
  length vis = n /\ length po = n /\ cnt <= n /\
  NoDup (stack ++ slice po (n - cnt) n) /\
  (forall x, In x (stack ++ slice po (n - cnt) n) -> x < n) /\
  (forall x, x < n -> (vis.[x] = true <-> In x (stack ++ slice po (n - cnt) n))) /\
  (forall k, n - cnt <= k < n -> forall c, E po.[k] c -> exists k', k < k' < n /\ po.[k'] = c) /\
  (forall i, S i < length stack -> E stack.[i] stack.[S i]) /\
  (forall x, x < n -> vis.[x] = true -> (exists u, E u x) \/ L x).

Lemma DInv_cnt L vis stack po c : DInv L vis stack po c -> c + length stack <= n.
Proof.
  intros (HV & HP & Hc & HN & HB & _). pose proof (NoDup_bounded_length n _ HN HB) as H.
  rewrite app_length, slice_length in H by lia. lia.
Qed.

Lemma po_scan_wp vis stack head (Q : _ -> Prop) : head < n -> length vis = n ->
  ((forall c, E head c -> vis.[c] = true) -> Q (vis, stack, head, true)) ->
  (forall c, E head c -> c < n -> vis.[c] = false -> Q (upd vis c true, stack ++ [c], c, false)) ->
  wp (po_scan Lp Li vis stack head) Q.
Proof.
  intros Hh HV H1 H2. unfold po_scan. pose proof (wf_Lp_len n Lp Li W).
  destruct (DF head Hh) as (Hne & _ & _).
  wp1. wp1; [lia|]. wp1. wp1; [lia|].
  apply (wp_forb (fun d st => st = (vis, stack, head, true) /\
     forall k, Lp.[S head] - 1 - d < k < Lp.[S head] -> Lp.[head] < k -> vis.[Li.[k]] = true)).
  - lia.
  - split; auto. intros; lia.
  - intros d st Hd [-> Hv]. set (cp := Lp.[S head] - 1 - d).
    assert (Hcp : Lp.[head] < cp < Lp.[S head]) by lia.
    destruct (wf_col_lt n Lp Li W head cp Hh ltac:(lia)) as [Hc1 Hc2].
    pose proof (wf_Li_lt n Lp Li W cp Hc2) as Hc.
    wp1. wp1; [auto|]. wp1. wp1; [lia|]. destruct vis.[Li.[cp]] eqn:Ev.
    + apply wp_ret. simpl. split; auto. intros k Hk Hk2.
      destruct (Nat.eq_dec k cp) as [->|]; auto. apply Hv; lia.
    + wp1. wp1; [lia|]. apply wp_ret. simpl. apply H2; auto. apply child_edge; auto.
  - intros st [-> Hv]. apply H1. intros c He. apply edge_child in He. destruct He as (_ & k & Hk & <-).
    apply Hv; lia.
Qed.

Lemma po_iter_inv L junk vis stack po c head :
  DInv L vis stack po c -> stack <> [] -> head = stack.[length stack - 1] ->
  wp (po_iter n Lp Li false junk (vis, stack, head, po, c)) (fun s' =>
    let '(vis', stack', head', po', c') := s' in
    DInv L vis' stack' po' c' /\ (stack' <> [] -> head' = stack'.[length stack' - 1]) /\
    2 * (n - (c' + length stack')) + length stack' < 2 * (n - (c + length stack)) + length stack).
Proof.
  intros HI Hne Hhd. pose proof (DInv_cnt _ _ _ _ _ HI) as Hcnt.
  pose proof HI as (HV & HP & Hc & HN & HB & Hvis & Hord & Hpath & Hsrc).
  destruct (exists_last Hne) as (r & top & ->).
  rewrite app_length in *. simpl in *.
  replace (length r + 1 - 1) with (length r) in Hhd by lia. rewrite aget_app_last in Hhd. subst head.
  assert (Htop : top < n). { apply HB. rewrite !in_app_iff. simpl. auto. }
  unfold po_iter. wp1. apply po_scan_wp; auto.
  - (* all children visited: finish top *)
    intros Hch. wp1. apply wp_back; [rewrite app_length; simpl; lia|].
    rewrite app_length. simpl. replace (length r + 1 - 1) with (length r) by lia. rewrite aget_app_last.
    wp1. wp1; [lia|]. wp1. apply wp_pop_back; [rewrite app_length; simpl; lia|]. rewrite removelast_last.
    set (po' := upd po (n - 1 - c) top).
    assert (Hsl : slice po' (n - S c) n = top :: slice po (n - c) n).
    { unfold po'. rewrite slice_cons by (rewrite ?upd_length; lia).
      replace (n - S c) with (n - 1 - c) by lia. rewrite aget_upd_eq by lia.
      rewrite slice_upd_out by lia. do 2 f_equal. lia. }
    assert (Hin : forall x, In x (r ++ slice po' (n - S c) n) <-> In x ((r ++ [top]) ++ slice po (n - c) n)).
    { intros x. rewrite Hsl, !in_app_iff. simpl. tauto. }
    assert (HD : DInv L vis r po' (S c)).
    { unfold DInv. splits; auto; try lia.
      - unfold po'. now rewrite upd_length.
      - rewrite Hsl. rewrite <- app_assoc in HN. exact HN.
      - intros x Hx. apply HB. now apply Hin.
      - intros x Hx. rewrite Hvis by auto. symmetry. apply Hin.
      - intros k Hk ch He. destruct (Nat.eq_dec k (n - 1 - c)) as [->|Hk'].
        + unfold po' in He. rewrite aget_upd_eq in He by lia.
          assert (Hcn : ch < n) by (apply (wf_edge_lt n Lp Li W) in He; lia).
          pose proof (Hch ch He) as Hv. apply Hvis in Hv; auto. apply in_app_iff in Hv.
          destruct Hv as [Hv|Hv].
          * exfalso. apply In_aget in Hv. destruct Hv as [i [Hi Ei]].
            rewrite app_length in Hi. simpl in Hi.
            pose proof (walk_chain E (r ++ [top]) (length r) ltac:(intros j Hj; apply Hpath; lia)
                          i (length r) ltac:(lia) ltac:(lia)) as Hw.
            rewrite Ei, aget_app_last in Hw. apply (AC ch (length r - i)).
            econstructor; eauto.
          * apply In_aget in Hv. destruct Hv as [i [Hi Ei]]. rewrite slice_length in Hi by lia.
            rewrite aget_slice in Ei by lia. exists (n - c + i). split; [lia|].
            unfold po'. rewrite aget_upd_ne by lia. auto.
        + assert (Epk : po'.[k] = po.[k]) by (unfold po'; apply aget_upd_ne; lia).
          rewrite Epk in He. destruct (Hord k ltac:(lia) ch He) as (k' & Hk2 & Ek). exists k'. split; [lia|].
          unfold po'. rewrite aget_upd_ne by lia. auto.
      - intros i Hi. pose proof (Hpath i ltac:(lia)) as He. rewrite !aget_app1 in He by lia. auto. }
    destruct r as [|r0 r'] eqn:Er.
    + simpl. splits; auto; try lia. congruence.
    + rewrite <- Er in *. assert (Hl : 0 < length r) by (rewrite Er; simpl; lia).
      destruct (Nat.eqb_spec (length r) 0) as [E0|_]; [lia|]. simpl. wp1. apply wp_back; auto.
      apply wp_ret. splits; auto. lia.
  - (* push a child *)
    intros ch He Hcn Hvc. apply wp_ret.
    assert (Hni : ~ In ch ((r ++ [top]) ++ slice po (n - c) n)).
    { intros Hi. apply Hvis in Hi; auto. congruence. }
    assert (Hperm : Permutation (ch :: (r ++ [top]) ++ slice po (n - c) n)
                                ((((r ++ [top]) ++ [ch])) ++ slice po (n - c) n)).
    { rewrite <- (app_assoc (r ++ [top])). apply Permutation_middle. }
    assert (HD : DInv L (upd vis ch true) ((r ++ [top]) ++ [ch]) po c).
    { unfold DInv. splits; auto.
      - now rewrite upd_length.
      - eapply Permutation_NoDup; [exact Hperm|]. constructor; auto.
      - intros x Hx. eapply Permutation_in in Hx; [|symmetry; exact Hperm]. destruct Hx as [<-|Hx]; auto.
      - intros x Hx. rewrite aget_upd by lia. destruct (Nat.eqb_spec x ch) as [->|Hn].
        + split; auto. intros _. eapply Permutation_in; [exact Hperm|]. now left.
        + rewrite Hvis by auto. split; intros Hi.
          * eapply Permutation_in; [exact Hperm|]. now right.
          * eapply Permutation_in in Hi; [|symmetry; exact Hperm]. destruct Hi; [congruence|auto].
      - intros i Hi. rewrite !app_length in Hi. simpl in Hi.
        destruct (Nat.eq_dec (S i) (length r + 1)) as [Eq|Hn].
        + rewrite (aget_app1 _ [ch]) by (rewrite app_length; simpl; lia).
          replace i with (length r) by lia. rewrite aget_app_last.
          replace (S (length r)) with (length (r ++ [top])) by (rewrite app_length; simpl; lia).
          rewrite aget_app_last. auto.
        + rewrite !(aget_app1 _ [ch]) by (rewrite app_length; simpl; lia). apply Hpath. lia.
      - intros x Hx. rewrite aget_upd by lia. destruct (Nat.eqb_spec x ch) as [->|Hn]; eauto. }
    pose proof (DInv_cnt _ _ _ _ _ HD) as Hcnt'.
    rewrite !app_length in *. simpl in *. splits; auto; try lia.
    intros _. replace (length r + 1 + 1 - 1) with (length (r ++ [top])) by (rewrite app_length; simpl; lia).
    now rewrite aget_app_last.
Qed.

Lemma po_dfs_wp L junk vis stack po c head (Q : po_state -> Prop) :
  DInv L vis stack po c -> (stack <> [] -> head = stack.[length stack - 1]) ->
  (forall vis' po' c' h, DInv L vis' [] po' c' ->
     (forall x, x < n -> vis.[x] = true -> vis'.[x] = true) -> Q (vis', [], h, po', c')) ->
  wp (while_ (S (S (2 * n)))
      (fun s : po_state => let '(_, stack, _, _, _) := s in Ok (negb (length stack =? 0)))
      (po_iter n Lp Li false junk) (vis, stack, head, po, c)) Q.
Proof.
  intros HI Hhd HQ.
  apply (wp_while (fun s : po_state => let '(vis', stack', head', po', c') := s in
     DInv L vis' stack' po' c' /\ (stack' <> [] -> head' = stack'.[length stack' - 1]) /\
     (forall x, x < n -> vis.[x] = true -> vis'.[x] = true))
    (fun s : po_state => let '(_, stack', _, _, c') := s in 2 * (n - (c' + length stack')) + length stack')).
  - splits; auto.
  - pose proof (DInv_cnt _ _ _ _ _ HI). lia.
  - intros ((((vis' & stack') & head') & po') & c') (HI' & Hhd' & Hmono). apply wp_ret.
    destruct (Nat.eqb_spec (length stack') 0) as [E0|E0]; simpl.
    + apply length_zero_iff_nil in E0. subst. apply HQ; auto.
    + assert (Hne : stack' <> []) by (intros ->; auto).
      pose proof HI' as (_ & _ & _ & _ & _ & Hvis' & _).
      eapply wp_mono; [apply wp_conj; [apply (po_iter_inv L junk _ _ _ _ _ HI' Hne (Hhd' Hne))|]|].
      * (* visited only grows *)
        instantiate (1 := fun s' => let '(v', _, _, _, _) := s' in forall x, x < n -> vis'.[x] = true -> v'.[x] = true).
        unfold po_iter. wp1. destruct HI' as (HV' & HP' & Hc' & HN' & HB' & _).
        assert (Hhn : head' < n).
        { rewrite (Hhd' Hne). apply HB'. apply in_app_iff. left. apply aget_In. lia. }
        apply po_scan_wp; auto.
        -- intros _.
           wp1. apply wp_back; [lia|]. wp1.
           assert (Hcc : c' < n).
           { pose proof (NoDup_bounded_length n _ HN' HB') as H. rewrite app_length, slice_length in H by lia. lia. }
           wp1; [lia|]. wp1. apply wp_pop_back; [lia|]. wp1.
           destruct (Nat.eqb_spec (length (removelast stack')) 0); simpl; auto.
           apply wp_back; [lia|]. simpl; auto.
        -- intros ch _ Hcn _. apply wp_ret. intros x Hx Hv. rewrite aget_upd by lia.
           destruct (Nat.eqb_spec x ch); auto.
      * intros ((((v2 & s2) & h2) & p2) & c2) [(HD2 & Hh2 & Hm2) Hg]. splits; auto.
Qed.

Lemma all_from_roots (V : nat -> Prop) :
  (forall x, x < n -> (forall u, ~ E u x) -> V x) ->
  (forall u v, V u -> E u v -> V v) ->
  (forall x, x < n -> (exists u, E u x) \/ (forall u, ~ E u x)) ->
  forall x, x < n -> V x.
Proof.
  intros Hroot Hcl Hdec.
  assert (G : forall m x w k, x < n -> chain E x w k -> n - k <= m -> V x).
  { induction m as [|m IH]; intros x w k Hx Hc Hm.
    - exfalso. destruct (long_walk n E x w k (wf_edge_lt n Lp Li W) Hx Hc ltac:(lia)) as (u & j & Hj).
      exact (AC u j Hj).
    - destruct (Hdec x Hx) as [(u & Hu)|Hn]; auto.
      assert (Hun : u < n) by apply (wf_edge_lt n Lp Li W _ _ Hu).
      apply (Hcl u); auto. apply (IH u w (S k)); auto; [|lia]. eapply chain_cons; eauto. }
  intros x Hx. apply (G n x x 0); auto; [constructor|lia].
Qed.

Lemma computePostOrder_wp junk :
  wp (computePostOrder junk n Lp Li) (fun po =>
    is_perm n po /\ forall i j, i < n -> j < n -> E po.[i] po.[j] -> i < j).
Proof.
  unfold computePostOrder, computePostOrder_. wp1. apply po_indegree_wp. intros deg HLd Hdeg.
  wp1. apply po_leaves_wp; auto. intros ls HNls Hls.
  assert (Hls' : forall x, In x ls <-> x < n /\ forall u, ~ E u x).
  { intros x. rewrite Hls. split; intros [Hx H]; split; auto.
    - intros u Hu. assert (0 < deg.[x]) by (apply Hdeg; eauto). lia.
    - destruct (Nat.eq_dec deg.[x] 0); auto. exfalso.
      destruct (proj1 (Hdeg x Hx) ltac:(lia)) as (u & Hu). exact (H u Hu). }
  set (m := length ls).
  set (L := fun lp x => exists q, q < lp /\ ls.[m - q - 1] = x).
  wp1. apply (wp_for (fun lp st => let '(vis, po, c) := st in
    DInv (L lp) vis [] po c /\ forall q, q < lp -> vis.[ls.[m - q - 1]] = true)).
  - lia.
  - split; [|intros; lia]. unfold DInv. simpl. rewrite !repeat_length, Nat.sub_0_r. splits; auto; try lia.
    + rewrite slice_nil by lia. constructor.
    + intros x. rewrite slice_nil by lia. simpl. tauto.
    + intros x Hx. rewrite aget_repeat by auto. rewrite slice_nil by lia. split; [discriminate|intros []].
    + intros x Hx. rewrite aget_repeat by auto. discriminate.
  - intros lp ((vis & po) & c) Hlp (HI & Hq). unfold po_leaf. fold m. wp1. wp1; [fold m; lia|].
    set (leaf := ls.[m - lp - 1]).
    assert (Hin : In leaf ls) by (apply aget_In; fold m; lia).
    apply Hls' in Hin. destruct Hin as [Hln Hnp].
    pose proof HI as (HV & HP & Hc & HN & HB & Hvis & Hord & Hpath & Hsrc).
    assert (Hnv : vis.[leaf] = false).
    { destruct vis.[leaf] eqn:Ev; auto. exfalso.
      destruct (Hsrc leaf Hln Ev) as [(u & Hu)|(q & Hq1 & Hq2)]; [exact (Hnp u Hu)|].
      unfold leaf in Hq2. apply NoDup_aget in Hq2; auto; fold m; lia. }
    wp1. wp1; [lia|]. wp1. simpl app in *.
    apply (po_dfs_wp (L (S lp))).
    + unfold DInv. splits; auto.
      * now rewrite upd_length.
      * simpl. constructor; auto. rewrite <- Hvis by auto. congruence.
      * intros x [<-|Hx]; auto.
      * intros x Hx. rewrite aget_upd by lia. simpl. destruct (Nat.eqb_spec x leaf) as [->|Hn].
        -- tauto.
        -- rewrite Hvis by auto. split; auto. intros [?|?]; [congruence|auto].
      * simpl. intros; lia.
      * intros x Hx. rewrite aget_upd by lia. destruct (Nat.eqb_spec x leaf) as [->|Hn].
        -- intros _. right. exists lp. auto.
        -- intros Hv. destruct (Hsrc x Hx Hv) as [?|(q & Hq1 & Hq2)]; auto. right. exists q. split; [lia|auto].
    + reflexivity.
    + intros vis' po' c' h HI' Hmono. apply wp_ret. split; auto. intros q Hq1.
      assert (Hqn : ls.[m - q - 1] < n) by (apply Hls'; apply aget_In; fold m; lia).
      apply Hmono; auto. rewrite aget_upd by lia.
      destruct (Nat.eqb_spec (ls.[m - q - 1]) leaf); auto. apply Hq.
      assert (q <> lp) by (intros ->; auto). lia.
  - intros ((vis & po) & c) (HI & Hq). apply wp_ret.
    pose proof HI as (HV & HP & Hc & HN & HB & Hvis & Hord & Hpath & Hsrc). simpl app in *.
    assert (Hall : forall x, x < n -> In x (slice po (n - c) n)).
    { intros x Hx. apply (all_from_roots (fun x => In x (slice po (n - c) n))); auto.
      - intros y Hy Hny. apply Hvis; auto.
        assert (Hi : In y ls) by (apply Hls'; auto). apply In_aget in Hi. destruct Hi as [i [Hi Ei]].
        fold m in Hi. replace i with (m - (m - 1 - i) - 1) in Ei by lia. rewrite <- Ei. apply Hq. lia.
      - intros u v Hu He. apply In_aget in Hu. destruct Hu as [i [Hi Ei]].
        rewrite slice_length in Hi by lia. rewrite aget_slice in Ei by lia. rewrite <- Ei in He.
        destruct (Hord (n - c + i) ltac:(lia) v He) as (k' & Hk' & Ek'). apply In_slice; [lia|lia|].
        exists k'. split; [lia|auto].
      - intros y Hy. destruct (Nat.eq_dec deg.[y] 0) as [E0|E0].
        + right. intros u Hu. assert (0 < deg.[y]) by (apply Hdeg; eauto). lia.
        + left. apply Hdeg; auto. lia. }
    assert (Hcn : c = n).
    { assert (length (seq 0 n) <= length (slice po (n - c) n)).
      { apply NoDup_incl_length; [apply seq_NoDup|]. intros x Hx. apply in_seq in Hx. apply Hall. lia. }
      rewrite seq_length, slice_length in H by lia. lia. }
    subst c. rewrite Nat.sub_diag in *.
    assert (Es : slice po 0 n = po) by (rewrite <- HP; apply slice_full).
    assert (HPm : is_perm n po) by (rewrite Es in HN, HB; apply is_perm_intro; auto).
    split; auto. intros i j Hi Hj He. destruct (Hord i ltac:(lia) _ He) as (k' & Hk' & Ek').
    apply (is_perm_inj n) in Ek'; auto; lia.
Qed.

End PO.

(** ** The stray read *)

Lemma po_iter_strict n Lp Li junk s s1 :
  po_iter n Lp Li false junk s = Ok s1 ->
  let stack1 := snd (fst (fst (fst s1))) in
  (stack1 = [] -> po_iter n Lp Li true 0 s = Err OOB \/ po_iter n Lp Li true 0 s = Ok s1 /\ snd s1 = snd s) /\
  (stack1 <> [] -> po_iter n Lp Li true 0 s = Ok s1).
Proof.
  destruct s as ((((vis & stack) & head) & po) & c). unfold po_iter.
  destruct (po_scan Lp Li vis stack head) as [[[[vis' stack'] head'] av]|e]; simpl; [|discriminate].
  destruct av.
  - destruct (back stack') as [top|]; simpl; [|discriminate].
    destruct (wr po (n - 1 - c) top) as [po'|]; simpl; [|discriminate].
    destruct (pop_back stack') as [st2|]; simpl; [|discriminate].
    rewrite andb_false_r. destruct (Nat.eqb_spec (length st2) 0) as [E0|E0]; simpl.
    + intros H. inversion H; subst; simpl. apply length_zero_iff_nil in E0. subst st2. split; [|congruence].
      intros _. left. reflexivity.
    + destruct (back st2) as [h|] eqn:Eb; simpl; [|discriminate]. intros H. inversion H; subst; simpl.
      split; [|auto]. intros ->. simpl in E0. congruence.
  - intros H. inversion H; subst; simpl. split; [|auto]. intros ->. right. auto.
Qed.

Section Strict.
Variables (n : nat) (Lp Li : list nat).
Hypothesis W : wf_csc n Lp Li.
Hypothesis DF : diag_first n Lp Li.
Notation E := (edge n Lp Li).
Hypothesis AC : acyclic E.

Lemma po_dfs_strict L fuel : forall vis stack po c head,
  DInv n Lp Li L vis stack po c -> stack <> [] -> head = stack.[length stack - 1] ->
  2 * (n - (c + length stack)) + length stack < fuel ->
  while_ fuel (fun s : po_state => let '(_, stack, _, _, _) := s in Ok (negb (length stack =? 0)))
    (po_iter n Lp Li true 0) (vis, stack, head, po, c) = Err OOB.
Proof.
  induction fuel as [|f IH]; intros vis stack po c head HI Hne Hhd Hm; simpl; [lia|].
  destruct (Nat.eqb_spec (length stack) 0) as [E0|E0]; [apply length_zero_iff_nil in E0; congruence|]. simpl.
  pose proof (DInv_cnt _ _ _ _ _ _ _ _ HI) as Hcnt.
  pose proof (po_iter_inv n Lp Li W DF AC L 0 vis stack po c head HI Hne Hhd) as H.
  apply wp_ok in H. destruct H as (((((vis' & stack') & head') & po') & c') & E1 & HI' & Hhd' & Hm').
  destruct (po_iter_strict n Lp Li 0 _ _ E1) as [HA HB]. simpl in HA, HB.
  destruct (list_eq_dec Nat.eq_dec stack' []) as [Es|Es].
  - destruct (HA Es) as [->|[_ Hc]]; [reflexivity|]. subst. simpl in Hm'. lia.
  - rewrite (HB Es). cbn [bind]. apply IH; auto. lia.
Qed.

Lemma computePostOrder_strict_err : 0 < n -> computePostOrder_strict n Lp Li = Err OOB.
Proof.
  intros Hn. unfold computePostOrder_strict, computePostOrder_.
  pose proof (po_indegree_wp n Lp Li W DF (fun deg => length deg = n /\ (forall v, v < n -> (0 < deg.[v] <-> exists u, E u v))) ltac:(intros; split; assumption)) as H1.
  apply wp_ok in H1. destruct H1 as (deg & -> & HLd & Hdeg). cbn [bind].
  pose proof (po_leaves_wp n deg (fun ls => NoDup ls /\ (forall v, In v ls <-> v < n /\ deg.[v] = 0)) HLd ltac:(intros; split; assumption)) as H2.
  apply wp_ok in H2. destruct H2 as (ls & -> & HN & Hls). cbn [bind].
  assert (Hm : 0 < length ls).
  { destruct ls as [|x t]; [exfalso|simpl; lia].
    apply (all_from_roots n Lp Li W AC (fun _ => False)) with (x := 0); auto.
    - intros x Hx Hnu. apply (Hls x). split; auto. destruct (Nat.eq_dec deg.[x] 0); auto. exfalso.
      destruct (proj1 (Hdeg x Hx) ltac:(lia)) as (u & Hu). exact (Hnu u Hu).
    - intros x Hx. destruct (Nat.eq_dec deg.[x] 0) as [E0|E0].
      + right. intros u Hu. assert (0 < deg.[x]) by (apply Hdeg; eauto). lia.
      + left. apply Hdeg; auto. lia. }
  rewrite for_step by auto. unfold po_leaf at 1. rewrite rd_ok by lia. cbn [bind].
  set (leaf := ls.[length ls - 0 - 1]).
  assert (Hin : In leaf ls) by (apply aget_In; lia). apply Hls in Hin. destruct Hin as [Hln Hd].
  rewrite wr_ok by (rewrite repeat_length; auto). cbn [bind].
  rewrite (po_dfs_strict (fun x => x = leaf)); [reflexivity| |discriminate|reflexivity|simpl; lia].
  unfold DInv. rewrite upd_length, !repeat_length, Nat.sub_0_r, slice_nil by lia. simpl. splits; auto; try lia.
  - constructor; [simpl; tauto|constructor].
  - intros x Hx. rewrite aget_upd by (rewrite repeat_length; auto).
    destruct (Nat.eqb_spec x leaf) as [->|Hne]; [tauto|]. rewrite aget_repeat by auto.
    split; [discriminate|]. intros [?|[]]; congruence.
  - intros x Hx. rewrite aget_upd by (rewrite repeat_length; auto).
    destruct (Nat.eqb_spec x leaf) as [->|Hne]; [auto|]. rewrite aget_repeat by auto. discriminate.
Qed.

End Strict.
