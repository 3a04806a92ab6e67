(** build_levelSet_BCSC: the level sets of the graph of the blocks. *)
From Verif Require Import Base Lib Lib2 Spec SpecBCSC L_Util M_LevelSet L_LevelSet L_LevelSet2 M_LBC L_LBC2 L_LBC3 L_LBC4 L_LBC5 L_LBC6 M_LBCTree M_BCSC L_BCSC.
From Coq Require Import ZifyBool ZifyNat.

Section Adv.
Variables (behind deg : list Z).
Lemma advance_b_wp b (Q : nat -> Prop) : b < length deg ->
  ((exists g t, behind = g :: t /\ g <> 1%Z) \/ exists i, b <= i < length deg /\ deg.[i] <> 1%Z) ->
  (forall b', b <= b' <= length deg -> (forall i, b <= i < b' -> deg.[i] = 1%Z) -> (b' < length deg -> deg.[b'] <> 1%Z) -> Q b') ->
  wp (advance_begin_b behind deg b) Q.
Proof.
  intros Hb Hs HQ. unfold advance_begin_b.
  apply (wp_while (fun b' => b <= b' <= length deg /\ forall i, b <= i < b' -> deg.[i] = 1%Z) (fun b' => length deg - b')).
  - split; [lia|]. intros i Hi. lia.
  - lia.
  - intros b' (I1 & I2). destruct (Nat.eq_dec b' (length deg)) as [En|En].
    + destruct Hs as [(g & t & Eg & Hg)|(i & Hi & Hd)]; [|specialize (I2 i ltac:(lia)); contradiction].
      wp1. wp1; [rewrite app_length, Eg; cbn [length]; lia|]. wp1.
      assert (Ex : (deg ++ behind).[b'] = g) by (rewrite aget_app2 by lia; rewrite Eg, En, Nat.sub_diag; reflexivity).
      rewrite Ex. replace (g =? 1)%Z with false by lia. apply HQ; [lia|auto|lia].
    + wp1. wp1; [rewrite app_length; lia|]. wp1. rewrite aget_app1 by lia. destruct (Z.eqb_spec deg.[b'] 1) as [Ed|Ed].
      * wp1. split; [|lia]. split; [lia|]. intros i Hi. destruct (Nat.eq_dec i b') as [->|]; [auto|]. apply I2. lia.
      * apply HQ; [lia|auto|auto].
Qed.
End Adv.

Lemma advance_oob deg b : b <= length deg -> (forall i, b <= i < length deg -> deg.[i] = 1%Z) -> advance_begin_b [] deg b = Err OOB.
Proof.
  unfold advance_begin_b. rewrite app_nil_r. cbn [length]. rewrite Nat.add_0_r. intros Hb H.
  assert (G : forall k b, b <= length deg -> length deg - b = k -> (forall i, b <= i < length deg -> deg.[i] = 1%Z) ->
     forall f, k < f -> while_ f (fun b => d <- rd deg b ;; Ok (d =? 1)%Z) (fun b => Ok (S b)) b = Err OOB).
  { clear b Hb H. induction k as [|k IH]; intros b Hb Ek H f Hf; (destruct f as [|f]; [lia|]); simpl.
    - rewrite rd_oob by lia. reflexivity.
    - rewrite rd_ok by lia. simpl. rewrite H by lia. simpl. apply IH; try lia. intros i Hi. apply H. lia. }
  apply (G (length deg - b) b); auto. lia.
Qed.

Section Levels.
Variables (nb : nat) (b2c c2b Lip Li : list nat).
Hypothesis BK : blk_ok nb b2c c2b Lip Li.
Local Notation Gp := (gp nb b2c c2b Lip Li).
Local Notation Gi := (gi nb b2c c2b Lip Li).
Local Notation E := (edge nb Gp Gi).
Local Notation W := (g_wf nb b2c c2b Lip Li BK).
Local Notation D1 := (one_diag_of_first nb Gp Gi (g_diag_first nb b2c c2b Lip Li BK)).

Lemma g_bounds a b : E a b -> a < nb /\ b < nb.
Proof. intros H. apply (g_lt nb b2c c2b Lip Li BK) in H. lia. Qed.
Lemma g_acyclic : ~ has_cycle E.
Proof.
  intros (u & k & H). assert (G : forall x y j, chain E x y j -> x + j <= y).
  { intros x y j Hc. induction Hc as [|x v w j Hc IH He]; [lia|]. apply (g_lt nb b2c c2b Lip Li BK) in He. lia. }
  specialize (G u u (S k) H). lia.
Qed.

Definition BInv (s : ls_state) : Prop :=
  let '(mkLS b e1 c col deg vis ptr lset n2l fl) := s in
  listed nb vis lset col /\ length deg = nb /\
  (forall v, v < nb -> deg.[v] = Z.of_nat (remdeg nb Gp Gi (aget vis) v)) /\
  nb <= length n2l /\ length ptr = nb + 1 /\ length lset = nb /\
  b <= nb /\ 0 < e1 <= nb /\
  (forall i, i < nb -> i < b \/ e1 <= i -> vis.[i] = true) /\
  ptr.[0] = 0 /\ (forall l, l < c -> ptr.[l] <= ptr.[S l]) /\ ptr.[c] = col /\
  (b < e1 -> vis.[b] = false) /\ c <= nb /\
  (forall l k, l < c -> ptr.[l] <= k < ptr.[S l] -> depth_is E lset.[k] l) /\
  (forall v, v < nb -> vis.[v] = false -> exists u, u < nb /\ chain E u v c) /\
  (forall u v, E u v -> vis.[v] = true -> vis.[u] = true) /\
  (c = 0 \/ exists u v, u < nb /\ chain E u v (c - 1)) /\
  (forall l, l < c -> ptr.[l] < ptr.[S l]).

(** an unplaced node means another round *)
Lemma binv_room b e1 c col deg vis ptr lset n2l fl v : BInv (mkLS b e1 c col deg vis ptr lset n2l fl) -> v < nb -> vis.[v] = false -> b < e1 /\ c < nb.
Proof.
  intros (L & HLd & Hdeg & Hn2l & Hptr & Hls & Hb & He & Hout & Hp0 & Hpm & Hpc & Hvb & Hcn & Hlev & Hun & Hcl & Hne & Hst) Hv Hf. split.
  - destruct (le_lt_dec e1 b) as [A|A]; auto. rewrite Hout in Hf; [discriminate|auto|lia].
  - destruct (le_lt_dec nb c) as [A|A]; auto. exfalso. destruct (Hun v Hv Hf) as (u & Hu & Hc).
    apply g_acyclic. apply (long_walk nb E u v c g_bounds Hu Hc A).
Qed.

Lemma round_b_wp behind s :
  BInv s -> ls_begin s < ls_end1 s ->
  ((exists g t, behind = g :: t /\ g <> 1%Z) \/ exists i, ls_begin s <= i < nb /\ (ls_deg s).[i] <> 1%Z) ->
  wp (ls_round_b b2c c2b Lip Li behind nb s) (fun s' => BInv s' /\ ls_cur s' = S (ls_cur s) /\
     (forall v, v < nb -> (ls_deg s).[v] <> 1%Z -> (ls_vis s').[v] = false)).
Proof.
  destruct s as [b e1 c col deg vis ptr lset n2l fl]. cbn [ls_begin ls_end1 ls_deg ls_cur].
  intros I Hbe Hgo.
  pose proof I as (L & HLd & Hdeg & Hn2l & Hptr & Hls & Hb & He & Hout & Hp0 & Hpm & Hpc & Hvb & Hcn & Hlev & Hun & Hcl & Hne & Hst).
  specialize (Hvb Hbe).
  destruct (binv_room _ _ _ _ _ _ _ _ _ _ b I ltac:(lia) Hvb) as [_ Hc].
  unfold ls_round_b. cbn [ls_begin ls_end1 ls_deg ls_cur ls_vis ls_set ls_n2l ls_col ls_ptr].
  wp1. apply (scan_level_wp nb); auto; try lia.
  intros vis' lset' n2l' col' L' HLs HLn Hcol Hpre Hnew Hvis Hkeep Hinc.
  pose proof L as (V1 & V2 & V3 & V4 & V5 & V6).
  pose proof L' as (V1' & V2' & V3' & V4' & V5' & V6').
  assert (Hpv : forall u, u < nb -> vis.[u] = true -> exists l k, l < c /\ k < col /\ ptr.[l] <= k < ptr.[S l] /\ lset.[k] = u).
  { intros u Hu Hv. apply V6 in Hv; auto. destruct Hv as [k [Hk Eu]].
    destruct (bucket_exists (aget ptr) c k) as [l [Hl Hlk]]; [lia|lia|]. eauto 10. }
  assert (Hdeg1 : forall v, v < nb -> vis'.[v] = true -> deg.[v] = 1%Z).
  { intros v Hv Hv'. apply Hvis in Hv'; auto. destruct Hv' as [Hv'|[_ ?]]; auto.
    rewrite Hdeg by auto. change 1%Z with (Z.of_nat 1). f_equal. apply (remdeg_one_iff nb Gp Gi D1); auto.
    intros u Hu. apply (Hcl u v); auto. }
  assert (Hpreds : forall v, v < nb -> deg.[v] = 1%Z -> forall u, E u v -> vis.[u] = true).
  { intros v Hv H1. rewrite Hdeg in H1 by auto.
    apply (remdeg_one_iff nb Gp Gi D1 (aget vis) v Hv). lia. }
  assert (Hvsub : forall v, v < nb -> vis.[v] = true -> vis'.[v] = true) by (intros; apply Hvis; auto).
  (* the level is not empty *)
  assert (Hgrow : col < col').
  { destruct (le_lt_dec col' col) as [A|A]; [|auto]. exfalso.
    assert (G : forall m v, v < m -> v < nb -> vis.[v] = false -> False).
    { induction m as [|m IH]; intros v Hvm Hv Hf; [lia|].
      assert (deg.[v] <> 1%Z).
      { intros H1. assert (Hv' : vis'.[v] = true).
        { apply Hvis; auto. right. split; [|auto]. destruct (le_lt_dec b v) as [X|X]; [|rewrite Hout in Hf; auto; discriminate].
          destruct (le_lt_dec e1 v) as [Y|Y]; [rewrite Hout in Hf; auto; discriminate|lia]. }
        apply V6' in Hv'; auto. destruct Hv' as (k & Hk & Ek). assert (vis.[v] = true); [|congruence].
        apply V6; auto. exists k. split; [lia|]. rewrite <- Ek. symmetry. apply Hpre. lia. }
      rewrite Hdeg in H by auto. destruct (remdeg_not_one nb Gp Gi D1 (aget vis) v Hv ltac:(lia)) as (u & Hu1 & Hu2).
      pose proof (g_lt nb b2c c2b Lip Li BK u v Hu1). apply (IH u); try lia; auto. }
    apply (G (S b) b); auto; lia. }
  wp1. wp1; [lia|].
  wp1. apply advance_b_wp; [lia|rewrite HLd; exact Hgo|]. rewrite HLd. intros b' Hb' Hbd Hbn.
  wp1. apply retreat_end_wp; auto. intros e' He' Hed.
  wp1. wp1; [rewrite upd_length; lia|]. wp1. wp1; [rewrite upd_length; lia|].
  rewrite aget_upd_eq by lia. rewrite aget_upd_ne by lia. replace (S c - 1) with c by lia. rewrite Hpc.
  wp1. apply (wp_ref (remove_edges Gp Gi lset' col col' deg)); [now apply remove_ref|].
  apply (remove_edges_wp nb Gp Gi W (aget vis)); auto; try lia.
  { intros k Hk. split; [apply V4'; lia|]. now apply Hnew. }
  { intros k k' Hk Hk'. apply V5'; lia. }
  intros deg' D' HLd' Hdeg' HD'. apply wp_ret. cbn [ls_vis ls_cur]. split; [|split; [auto|]].
  2:{ intros v Hv Hd. destruct (vis'.[v]) eqn:Ev; auto. elim Hd. now apply Hdeg1. }
  assert (HDv : forall u, u < nb -> D' u = vis'.[u]).
  { intros u Hu. destruct (vis'.[u]) eqn:Ev.
    - apply HD'. apply V6' in Ev; auto. destruct Ev as [k [Hk Ek]].
      destruct (le_lt_dec col k).
      + right. exists k. split; [lia|auto].
      + left. apply V6; auto. exists k. split; auto. rewrite <- Ek. symmetry. auto.
    - destruct (D' u) eqn:Ed; auto. apply HD' in Ed. rewrite <- Ev. symmetry.
      destruct Ed as [Ed|[k [Hk Ek]]]; [auto|]. apply V6'; auto. exists k. split; [lia|auto]. }
  cbn [BInv]. splits; auto; try lia.
  - intros v Hv. rewrite Hdeg' by auto. f_equal. now apply remdeg_ext.
  - rewrite upd_length. lia.
  - intros i Hi Hor. destruct (le_lt_dec b i) as [Hbi|Hbi]; [|auto].
    destruct (le_lt_dec e1 i) as [Hei|Hei]; [auto|].
    apply Hvis; auto. right. split; [lia|]. destruct Hor; [apply Hbd|apply Hed]; lia.
  - rewrite aget_upd_ne by lia. auto.
  - intros l Hl. rewrite !aget_upd by lia. destruct (Nat.eqb_spec l (S c)); [lia|].
    destruct (Nat.eqb_spec (S l) (S c)) as [El|]; [|apply Hpm; lia].
    injection El as ->. lia.
  - rewrite aget_upd_eq by lia. auto.
  - intros Hbe'. destruct (vis'.[b']) eqn:Ev; auto. exfalso.
    apply (Hbn ltac:(lia)). apply Hdeg1; auto. lia.
  - intros l k Hl. rewrite !aget_upd by lia. destruct (Nat.eqb_spec l (S c)); [lia|].
    destruct (Nat.eqb_spec (S l) (S c)) as [El|].
    + injection El as ->. rewrite Hpc. intros Hk.
      destruct (Hnew k Hk) as (G1 & G2 & G3 & G4).
      assert (Hkn : lset'.[k] < nb) by (apply V4'; lia).
      split.
      * destruct (Hun lset'.[k] Hkn G1) as [u [Hu Hch]]. eauto.
      * intros u j Hch. inversion Hch as [|? w ? j' Hch' Hew]; subst; [lia|].
        assert (Hw : vis.[w] = true) by (apply (Hpreds lset'.[k]); auto).
        assert (Hwn : w < nb) by (apply (g_bounds w lset'.[k]); auto).
        destruct (Hpv w Hwn Hw) as (lw & kw & Hlw & Hkw & Hkk & Ew).
        destruct (Hlev lw kw Hlw Hkk) as [_ Hdw]. rewrite Ew in Hdw.
        specialize (Hdw u j' Hch'). lia.
    + intros Hk. assert (Hkc : k < col).
      { pose proof (mono_le (aget ptr) c Hpm (S l) c ltac:(lia) ltac:(lia)). lia. }
      rewrite Hpre by auto. apply Hlev; auto. lia.
  - intros v Hv Hv'. assert (Hvf : vis.[v] = false).
    { destruct (vis.[v]) eqn:Ev; auto. rewrite Hvsub in Hv'; auto. }
    assert (Hd1 : deg.[v] <> 1%Z).
    { intros H1. destruct (le_lt_dec b v) as [Hbi|Hbi]; [|rewrite Hout in Hvf; auto; discriminate].
      destruct (le_lt_dec e1 v) as [Hei|Hei]; [rewrite Hout in Hvf; auto; discriminate|].
      rewrite (proj2 (Hvis v Hv)) in Hv'; [discriminate|auto]. }
    rewrite Hdeg in Hd1 by auto.
    destruct (remdeg_not_one nb Gp Gi D1 (aget vis) v Hv ltac:(lia)) as [u [Hu1 Hu2]].
    destruct (Hun u) as [w [Hw Hch]]; auto; [apply Hu1|].
    exists w. split; auto. econstructor; eauto.
  - intros u v Hu Hv. pose proof (g_bounds u v Hu) as [Hun' Hvn].
    apply Hvsub; auto. apply Hvis in Hv; auto. destruct Hv as [Hv|[_ Hv]]; eauto.
  - right. simpl. rewrite Nat.sub_0_r. destruct (Hun b ltac:(lia) Hvb) as [u [Hu Hch]]. eauto.
  - intros l Hl. rewrite !aget_upd by lia. destruct (Nat.eqb_spec l (S c)); [lia|].
    destruct (Nat.eqb_spec (S l) (S c)) as [El|]; [|apply Hst; lia].
    injection El as ->. lia.
Qed.

Lemma round_b_oob s : BInv s -> ls_begin s < ls_end1 s -> (forall i, ls_begin s <= i < nb -> (ls_deg s).[i] = 1%Z) ->
  ls_round_b b2c c2b Lip Li [] nb s = Err OOB.
Proof.
  destruct s as [b e1 c col deg vis ptr lset n2l fl]. cbn [ls_begin ls_end1 ls_deg ls_cur].
  intros I Hbe Hall.
  pose proof I as (L & HLd & Hdeg & Hn2l & Hptr & Hls & Hb & He & Hout & Hp0 & Hpm & Hpc & Hvb & Hcn & _).
  specialize (Hvb Hbe). destruct (binv_room _ _ _ _ _ _ _ _ _ _ b I ltac:(lia) Hvb) as [_ Hc].
  unfold ls_round_b. cbn [ls_begin ls_end1 ls_deg ls_cur ls_vis ls_set ls_n2l ls_col ls_ptr].
  assert (S1 : exists r, scan_level b e1 c deg (vis, lset, n2l, col) = Ok r).
  { enough (HW : wp (scan_level b e1 c deg (vis, lset, n2l, col)) (fun _ => True)) by (apply wp_ok in HW; destruct HW as (a & Ea & _); eauto).
    apply (scan_level_wp nb); auto; try lia. }
  destruct S1 as ([[[v' l'] n'] c'] & ->). cbn [bind]. rewrite wr_ok by lia. cbn [bind].
  rewrite advance_oob; [reflexivity|lia|]. rewrite HLd. auto.
Qed.

Definition blevels (k : nat) (lp ls : list nat) : Prop :=
  level_partition nb k lp ls /\ length lp = nb + 1 /\ length ls = nb /\ k <= nb /\
  (forall l i, l < k -> lp.[l] <= i < lp.[S l] -> depth_is E ls.[i] l) /\
  (forall l, l < k -> lp.[l] < lp.[S l]) /\ (0 < nb -> 0 < k).

Lemma init_inv deg : 0 < nb -> length deg = nb -> (forall v, v < nb -> deg.[v] = Z.of_nat (remdeg nb Gp Gi (fun _ => false) v)) ->
  BInv (mkLS 0 nb 0 0 deg (repeat false nb) (repeat 0 (nb + 1)) (repeat 0 nb) (repeat 0 nb) false).
Proof.
  intros Hn HLd Hdeg. cbn [BInv]. rewrite !repeat_length. splits; auto; try lia.
  - unfold listed. rewrite !repeat_length. splits; auto; try lia.
    intros v Hv. rewrite aget_repeat by auto. split; [discriminate|]. intros [k [Hk _]]. lia.
  - intros v Hv. rewrite Hdeg by auto. f_equal. apply remdeg_ext. intros u Hu. now rewrite aget_repeat.
  - apply aget_repeat. lia.
  - apply aget_repeat. lia.
  - intros _. apply aget_repeat. lia.
  - intros v Hv _. exists v. split; auto. constructor.
  - intros u v Hu. rewrite aget_repeat; [discriminate|]. now apply g_bounds in Hu.
Qed.

Lemma bdegree_wp (Q : list Z -> Prop) :
  (forall deg, length deg = nb -> (forall v, v < nb -> deg.[v] = Z.of_nat (remdeg nb Gp Gi (fun _ => false) v)) -> Q deg) ->
  wp (bcsc_degree b2c c2b Lip Li nb) Q.
Proof. intros HQ. eapply wp_ref; [apply degree_ref; auto|]. apply lbc_deg_wp; auto. apply W. Qed.

Theorem bcsc_levels_wp g t (Q : nat * (list nat * list nat) -> Prop) : g <> 1%Z ->
  (forall k lp ls, blevels k lp ls -> Q (k, (lp, ls))) ->
  wp (build_levelSet_BCSC b2c c2b Lip Li (g :: t) nb) Q.
Proof.
  intros Hg HQ. unfold build_levelSet_BCSC. wp1. apply bdegree_wp. intros deg HLd Hdeg. wp1.
  destruct (Nat.eq_dec nb 0) as [Hn0|Hn0].
  { rewrite Hn0. cbn [while_ bind ls_begin ls_end1 Nat.ltb Nat.leb]. wp1. cbn [ls_cur ls_ptr ls_set]. apply HQ.
    unfold blevels, level_partition. rewrite Hn0. simpl. splits; auto; try lia; intros; lia. }
  apply (wp_while BInv (fun s => nb - ls_cur s)).
  - apply init_inv; auto. lia.
  - cbn [ls_cur]. lia.
  - intros s HI. apply wp_ret. destruct (Nat.ltb_spec (ls_begin s) (ls_end1 s)) as [Hbe|Hbe].
    + eapply wp_mono; [apply round_b_wp; auto; left; eauto|]. intros s' (A & B & _). split; auto.
      assert (ls_cur s < nb); [|lia]. destruct s as [b e1 c col dg vis ptr lset n2l' fl]. cbn [ls_cur ls_begin ls_end1] in *.
      pose proof HI as (_ & _ & _ & _ & _ & _ & _ & He & _ & _ & _ & _ & Hvb & _). apply (binv_room _ _ _ _ _ _ _ _ _ _ b HI); [lia|auto].
    + destruct s as [b e1 c col dg vis ptr lset n2l' fl]. cbn [ls_begin ls_end1] in Hbe. wp1. cbn [ls_cur ls_ptr ls_set].
      destruct HI as (L & HLd' & Hdeg' & Hn2l & Hptr & Hls & Hb & He & Hout & Hp0 & Hpm & Hpc & Hvb & Hcn & Hlev & Hun & Hcl & Hne & Hst).
      pose proof L as (V1 & V2 & V3 & V4 & V5 & V6). apply HQ.
      assert (Hall : forall v, v < nb -> exists k, k < col /\ lset.[k] = v).
      { intros v Hv. apply V6; auto. apply Hout; auto. lia. }
      assert (Ecol : col = nb).
      { assert (nb <= length (map (aget lset) (seq 0 col))).
        { rewrite <- (seq_length nb 0) at 1. apply NoDup_incl_length; [apply seq_NoDup|].
          intros v Hv. apply in_seq in Hv. destruct (Hall v ltac:(lia)) as [k [Hk Ek]].
          apply in_map_iff. exists k. split; auto. apply in_seq. lia. }
        rewrite map_length, seq_length in H. lia. }
      assert (Hc0 : c <> 0) by (intros ->; lia).
      unfold blevels, level_partition. subst col. splits; auto; try lia.
      * intros i Hi. apply V4. lia.
      * intros i j Hi Hj. apply V5; lia.
Qed.

(** with the allocation the code makes the last round always reads past the end *)
Theorem bcsc_levels_oob : 0 < nb -> build_levelSet_BCSC b2c c2b Lip Li [] nb = Err OOB.
Proof.
  intros Hn. unfold build_levelSet_BCSC.
  destruct (proj1 (wp_ok _ _ _) (bdegree_wp (fun deg => length deg = nb /\ forall v, v < nb -> deg.[v] = Z.of_nat (remdeg nb Gp Gi (fun _ => false) v))
     (fun deg A B => conj A B))) as (deg & -> & HLd & Hdeg). cbn [bind].
  assert (G : forall k s f, BInv s -> (exists v, v < nb /\ (ls_vis s).[v] = false) -> nb - ls_cur s <= k -> k < f ->
     while_ f (fun s => Ok (ls_begin s <? ls_end1 s)) (ls_round_b b2c c2b Lip Li [] nb) s = Err OOB).
  { induction k as [|k IH]; intros s f I (v & Hv & Hf) Hk Hfu.
    - exfalso. destruct s as [b e1 c col dg vis ptr lset n2l fl]. destruct (binv_room _ _ _ _ _ _ _ _ _ _ v I Hv Hf). cbn [ls_cur] in Hk. lia.
    - destruct f as [|f]; [lia|]. cbn [while_ bind].
      assert (Hbe : ls_begin s < ls_end1 s) by (destruct s as [b e1 c col dg vis ptr lset n2l fl]; apply (binv_room _ _ _ _ _ _ _ _ _ _ v I Hv Hf)).
      replace (ls_begin s <? ls_end1 s) with true by lia.
      destruct (Forall_Exists_dec (fun i => (ls_deg s).[i] = 1%Z) (fun i => Z.eq_dec _ _) (seq (ls_begin s) (nb - ls_begin s))) as [A|A].
      + rewrite Forall_forall in A. rewrite round_b_oob; auto. intros i Hi. apply A. apply in_seq. lia.
      + apply Exists_exists in A. destruct A as (i & Hi & Hd). apply in_seq in Hi. assert (Hi' : ls_begin s <= i < nb) by lia.
        destruct (proj1 (wp_ok _ _ _) (round_b_wp [] s I Hbe (or_intror (ex_intro _ i (conj Hi' Hd))))) as (s' & -> & I' & C & V). cbn [bind].
        apply IH; auto; [|lia|lia]. exists i. split; [lia|]. apply V; [lia|auto]. }
  rewrite (G nb _ (S nb)); auto.
  - now apply init_inv.
  - exists 0. split; [auto|]. cbn [ls_vis]. now apply aget_repeat.
  - cbn [ls_cur]. lia.
Qed.

Lemma blevels_lev_ok k lp ls n2l : blevels k lp ls -> length n2l = nb -> (forall l v, l < k -> in_level lp ls l v -> n2l.[v] = l) ->
  lev_ok nb Gp Gi k lp ls n2l.
Proof.
  intros (HP & H1 & H2 & H3 & HD & HN & H0) HL H4. pose proof HP as (P0 & Pm & Pk & Plt & Pinj).
  assert (IN : forall v, v < nb -> n2l.[v] < k /\ in_level lp ls n2l.[v] v).
  { intros v Hv. destruct (inj_onto nb (aget ls) Plt Pinj v Hv) as [i [Hi Ei]].
    destruct (bucket_exists (aget lp) k i) as [l [Hl Hil]]; [lia|lia|].
    assert (Hin : in_level lp ls l v) by (exists i; auto). rewrite (H4 l v Hl Hin). auto. }
  assert (DP : forall v, v < nb -> depth_is E v n2l.[v]).
  { intros v Hv. destruct (IN v Hv) as [Hl (i & Hi & Ei)]. rewrite <- Ei at 1. apply HD; auto. }
  assert (ED : forall u v, E u v -> n2l.[u] < n2l.[v]).
  { intros u v He. destruct (g_bounds u v He) as [Hu Hv]. destruct (DP u Hu) as [[w Hw] _]. destruct (DP v Hv) as [_ Hm].
    specialize (Hm w (S n2l.[u]) ltac:(econstructor; eauto)). lia. }
  constructor; auto; try lia.
  - intros l i Hl Hi. apply H4; auto. exists i. auto.
  - intros v Hv Hp. destruct (DP v Hv) as [[w Hw] Hmax]. destruct n2l.[v] as [|d] eqn:Ed; [lia|].
    apply chain_last in Hw. destruct Hw as (u & Hc & He). exists u. split; auto.
    pose proof (ED u v He) as Hlt. destruct (g_bounds u v He) as [Hu _]. destruct (DP u Hu) as [_ Hm]. specialize (Hm w d Hc). lia.
Qed.
End Levels.
