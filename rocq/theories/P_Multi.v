(** C96, C97, C98: level sets of several copies of a graph, get_coarse_levelSet_DAG_CSC, merging graphs. *)
From Verif Require Import Base Lib Lib2 Spec SpecMulti Check L_Util M_LBC L_LBC L_LBC5 M_Multi L_Multi L_Multi2 L_Merge L_LbcCsc P_LBC.
From Coq Require Import ZifyBool ZifyNat.

Lemma wp_exists {A} (m : res A) (Q : A -> Prop) : wp m Q -> exists a, m = Ok a /\ Q a.
Proof. destruct m as [a|e]; simpl; [eauto|intros []]. Qed.

(** * C96: level_set_multi_graphs *)

(** For every well-formed graph and number of copies, also for cyclic graphs: exactly the nodes with a longest chain are
    placed, once, and the level of a node is the length of its longest chain in the copies. *)
Theorem C96_multi_levels : forall n Lp Li K, wf_csc n Lp Li -> 1 <= K ->
  exists k levelPtr levelSet, level_set_multi_graphs n Lp Li K = Ok (k, (levelPtr, levelSet)) /\
    length levelPtr = S k /\ length levelSet = K * n /\ levelPtr.[0] = 0 /\ levelPtr.[k] <= K * n /\
    (forall l, l < k -> levelPtr.[l] < levelPtr.[S l]) /\
    (forall i j, i < levelPtr.[k] -> j < levelPtr.[k] -> levelSet.[i] = levelSet.[j] -> i = j) /\
    (forall l x, l < k /\ in_level levelPtr levelSet l x <-> x < K * n /\ depth_is (copies_edge n K (tail_edge n Lp Li)) x l).
Proof.
  intros n Lp Li K HW HK.
  destruct (wp_exists (level_set_multi_graphs n Lp Li K) (fun r => exists Ls, fst r = length Ls /\ multi_ok n K Lp Li Ls (fst (snd r)) (snd (snd r)))) as ([k [lp ls]] & E & Ls & Ek & HM).
  { apply level_set_multi_wp; auto. intros Ls lp ls HM. exists Ls. auto. }
  simpl in Ek, HM. subst k. exists (length Ls), lp, ls. split; [auto|].
  pose proof (mo_rep _ _ _ _ _ _ _ HM) as [R1 R2].
  assert (Elast : lp.[length Ls] = length (concat Ls)) by (rewrite R1 by lia; now rewrite firstn_all).
  split; [apply (mo_lp _ _ _ _ _ _ _ HM)|]. split; [apply (mo_ls _ _ _ _ _ _ _ HM)|].
  split; [rewrite R1 by lia; auto|]. split.
  { rewrite Elast. apply NoDup_bounded_length; [apply (mo_nodup _ _ _ _ _ _ _ HM)|apply (mo_lt _ _ _ _ _ _ _ HM)]. }
  split. { intros l Hl. rewrite !R1 by lia. rewrite concat_firstn_S by auto. rewrite app_length.
    pose proof (mo_ne _ _ _ _ _ _ _ HM Ls.[l] (aget_In Ls l Hl)). destruct Ls.[l]; [congruence|]. simpl. lia. }
  split. { intros i j Hi Hj Eij. rewrite Elast in *. rewrite !R2 in Eij by auto. apply (NoDup_aget (concat Ls)); auto. apply (mo_nodup _ _ _ _ _ _ _ HM). }
  intros l x. rewrite <- (placed_iff n K Lp Li Ls lp ls HW HK HM). split; intros [A B]; (split; [auto|]).
  - now apply (rep_level n K Lp Li Ls lp ls HK HM).
  - now apply (rep_level n K Lp Li Ls lp ls HK HM).
Qed.
Print Assumptions C96_multi_levels.

(** a chain to a node of the first copy stays in the first copy *)
Lemma copy0_edge n K (E : nat -> nat -> Prop) x v : 1 <= K -> v < n -> copies_edge n K E x v -> x < n /\ E x v.
Proof.
  intros HK Hv [(q & u & w & Hq & Hu & Hw & He & -> & Ev)|(q & u & Hq & Hu & -> & Ev)].
  - replace v with (v + n * 0) in Ev by lia. apply copy_inj in Ev; auto. destruct Ev as [-> <-]. rewrite Nat.mul_0_r, Nat.add_0_r. auto.
  - replace v with (v + n * 0) in Ev by lia. apply copy_inj in Ev; auto. lia.
Qed.
Lemma copy0_chain n K (E : nat -> nat -> Prop) v : 1 <= K -> (forall a b, E a b -> a < n /\ b < n) -> v < n ->
  forall k u, chain (copies_edge n K E) u v k <-> chain E u v k.
Proof.
  intros HK HB Hv k u. revert v Hv. induction k as [|k IH]; intros v Hv.
  - split; intros H; inversion H; constructor.
  - split; intros H; inversion H as [|u' w v' k' Hc He]; subst.
    + apply copy0_edge in He; auto. destruct He as [Hw He]. apply IH in Hc; auto. econstructor; eauto.
    + destruct (HB _ _ He) as [Hw _]. apply IH in Hc; auto. econstructor; [exact Hc|]. left. exists 0, w, v.
      rewrite Nat.mul_0_r, !Nat.add_0_r. repeat (split; [auto|]). auto.
Qed.
Lemma copy0_depth n K (E : nat -> nat -> Prop) v d : 1 <= K -> (forall a b, E a b -> a < n /\ b < n) -> v < n ->
  (depth_is (copies_edge n K E) v d <-> depth_is E v d).
Proof.
  intros HK HB Hv. unfold depth_is. split; intros [[u A] B]; (split; [exists u; now apply (copy0_chain n K E v HK HB Hv)|]);
    intros w k H; apply (B w), (copy0_chain n K E v HK HB Hv); auto.
Qed.

(** In terms of the one graph: copy [q] of node [v] is [q] levels after [v].  An acyclic graph gives a partition of
    all nodes of all copies. *)
Theorem C96_multi_shift : forall n Lp Li K, wf_csc n Lp Li -> 1 <= K ->
  exists k levelPtr levelSet, level_set_multi_graphs n Lp Li K = Ok (k, (levelPtr, levelSet)) /\
    (forall l v q, v < n -> q < K ->
       (l < k /\ in_level levelPtr levelSet l (v + n * q) <-> q <= l /\ depth_is (tail_edge n Lp Li) v (l - q))) /\
    (~ has_cycle (tail_edge n Lp Li) -> level_partition (K * n) k levelPtr levelSet).
Proof.
  intros n Lp Li K HW HK.
  destruct (wp_exists (level_set_multi_graphs n Lp Li K) (fun r => exists Ls, fst r = length Ls /\ multi_ok n K Lp Li Ls (fst (snd r)) (snd (snd r)))) as ([k [lp ls]] & E & Ls & Ek & HM).
  { apply level_set_multi_wp; auto. intros Ls lp ls HM. exists Ls. auto. }
  simpl in Ek, HM. subst k. exists (length Ls), lp, ls. split; [auto|].
  assert (HB : forall a b, tail_edge n Lp Li a b -> a < n /\ b < n) by (intros a b; apply (tl_lt n K Lp Li HW HK)).
  assert (Hrl : forall l x, l < length Ls -> (in_level lp ls l x <-> In x Ls.[l])) by (intros; eapply rep_level; eauto).
  destruct (mo_inv _ _ _ _ _ _ _ HM) as [V1 V2 V3 V4].
  assert (SH : forall q l v, v < n -> q < K -> (l < length Ls /\ In (v + n * q) Ls.[l] <-> q <= l /\ l < length Ls /\ In v Ls.[l - q])).
  { induction q as [|q IH]; intros l v Hv Hq.
    - rewrite Nat.mul_0_r, Nat.add_0_r, Nat.sub_0_r. intuition lia.
    - split.
      + intros [Hl Hin]. apply V1 in Hin; auto. destruct Hin as (l' & -> & Hin).
        assert (Hq' : q < K) by lia. assert (Hl' : l' < length Ls) by lia.
        destruct (proj1 (IH l' v Hv Hq') (conj Hl' Hin)) as (A & _ & B). replace (S l' - S q) with (l' - q) by lia. split; [lia|auto].
      + intros (A & Hl & B). split; [auto|]. destruct l as [|l]; [lia|]. replace (S l - S q) with (l - q) in B by lia.
        assert (Hq' : q < K) by lia.
        destruct (proj2 (IH l v Hv Hq')) as [_ C]; [split; [lia|]; split; [lia|auto]|]. apply V2; auto. }
  split.
  - intros l v q Hv Hq. split.
    + intros [Hl Hin]. apply Hrl in Hin; auto. destruct (proj1 (SH q l v Hv Hq) (conj Hl Hin)) as (A & _ & B). split; [auto|].
      apply (copy0_depth n K); auto. apply (placed_iff n K Lp Li Ls lp ls HW HK HM). split; [lia|auto].
    + intros [A Hd]. apply (copy0_depth n K) in Hd; auto.
      assert (Hl0 : l - q < length Ls /\ In v Ls.[l - q]) by (apply (placed_iff n K Lp Li Ls lp ls HW HK HM); split; [nia|auto]).
      destruct Hl0 as [Hl0 Hin].
      assert (G : forall j, j <= q -> l - q + j < length Ls /\ In (v + n * j) Ls.[l - q + j]).
      { induction j as [|j IHj]; intros Hj; [rewrite Nat.mul_0_r, !Nat.add_0_r; auto|]. destruct (IHj ltac:(lia)) as [C D].
        assert (P : In (v + n * S j) (concat Ls)) by (apply (mo_copy _ _ _ _ _ _ _ HM); [auto|lia|]; apply in_concat_aget; eauto).
        apply in_concat_aget in P. destruct P as (l2 & Hl2 & P). pose proof P as P'. apply V1 in P'; auto. destruct P' as (l3 & -> & P3).
        assert (l3 = l - q + j) by (eapply lv_unique; eauto; lia). subst l3. rewrite Nat.add_succ_r. auto. }
      destruct (G q ltac:(lia)) as [C D]. replace (l - q + q) with l in * by lia. split; [auto|]. now apply Hrl.
  - intros HC.
    assert (P0 : forall v, v < n -> In v (concat Ls)).
    { intros v Hv. destruct (mem v (concat Ls)) eqn:M; [now apply mem_In|]. apply mem_false in M. exfalso. apply HC.
      destruct (unplaced_chain n K Lp Li Ls lp ls HW HK HM n v ltac:(nia) M) as (x & Hx & Hc). apply copy0_chain in Hc; auto.
      apply (long_walk n _ x v n); auto. clear -Hc HB Hv HK. destruct n as [|m]; [lia|]. apply chain_uncons in Hc. destruct Hc as (w & Hw & _). now apply HB in Hw. }
    assert (PA : forall x, x < K * n -> In x (concat Ls)).
    { intros x Hx. destruct (copy_form n K x Hx) as (v & q & Hv & Hq & ->). clear Hx. induction q as [|q IH].
      - rewrite Nat.mul_0_r, Nat.add_0_r. auto.
      - apply (mo_copy _ _ _ _ _ _ _ HM); auto. apply IH. lia. }
    pose proof (mo_rep _ _ _ _ _ _ _ HM) as [R1 R2]. pose proof (mo_nodup _ _ _ _ _ _ _ HM) as HN. pose proof (mo_lt _ _ _ _ _ _ _ HM) as HL.
    assert (LN : length (concat Ls) = K * n).
    { apply Nat.le_antisymm; [now apply NoDup_bounded_length|].
      rewrite <- (seq_length (K * n) 0). apply NoDup_incl_length; [apply seq_NoDup|]. intros x Hx. apply in_seq in Hx. apply PA. lia. }
    split; [rewrite R1 by lia; auto|]. split; [|split; [|split]].
    + intros l Hl. rewrite !R1 by lia. rewrite concat_firstn_S by auto. rewrite app_length. lia.
    + rewrite R1 by lia. now rewrite firstn_all.
    + intros i Hi. rewrite R2 by lia. apply HL. apply aget_In. lia.
    + intros i j Hi Hj Eij. rewrite !R2 in Eij by lia. apply (NoDup_aget (concat Ls)); auto; lia.
Qed.
Print Assumptions C96_multi_shift.

(** no copies: memset is called with a negative size *)
Theorem C96_no_copies : forall n Lp Li, 0 < n -> level_set_multi_graphs n Lp Li 0 = Err OOB.
Proof. intros n Lp Li Hn. unfold level_set_multi_graphs, multi_degrees. replace (0 <? n) with true by lia. reflexivity. Qed.
Print Assumptions C96_no_copies.

(** 0 -> 1 -> 3, 0 -> 2, three copies *)
Example C96_ex : wf_csc 4 [0;3;5;6;7] [0;1;2; 1;3; 2; 3] /\ diag_first 4 [0;3;5;6;7] [0;1;2; 1;3; 2; 3] /\
  level_set_multi_graphs 4 [0;3;5;6;7] [0;1;2; 1;3; 2; 3] 3 = Ok (5, ([0;1;4;8;11;12], [0; 1;2;4; 3;5;6;8; 7;9;10; 11])).
Proof.
  split; [now apply wf_cscb_ok|]. split; [now apply diag_firstb_ok|]. vm_compute; reflexivity.
Qed.

(** * C97: get_coarse_levelSet_DAG_CSC *)

(** For every cost type, comparison and sort: a schedule of every node exactly once with every dependence ordered, also for a single
    chain.  With bin packing at most [target] parts per level and one in the last. *)
Theorem C97_csc_valid : forall (T : Type) (DT : Dflt T) (zero : T) add ltb int_max sortp n Lp Li innerParts minLevelDist divRate nodeCost,
  (forall l, Permutation (sortp l) l) -> wf_csc n Lp Li -> diag_first n Lp Li -> ~ has_cycle (edge n Lp Li) ->
  3 <= n \/ (n = 2 /\ ((2 <= minLevelDist)%Z \/ ~ visits_all n (edge n Lp Li))) ->
  innerParts <> 0%Z -> (1 <= minLevelDist)%Z -> (1 <= divRate)%Z -> n <= length nodeCost ->
  exists k levelPtr partPtr nodePtr,
    get_coarse_levelSet_DAG_CSC zero add ltb int_max sortp n Lp Li innerParts minLevelDist divRate nodeCost true = Ok (k, (levelPtr, partPtr, nodePtr)) /\
    valid_schedule n (edge n Lp Li) k levelPtr partPtr nodePtr /\ 1 <= k <= n /\
    length levelPtr = n + 1 /\ length partPtr = n /\ length nodePtr = n /\
    (forall l, l < k -> levelPtr.[S l] - levelPtr.[l] <= target innerParts) /\ levelPtr.[k] - levelPtr.[k - 1] <= 1.
Proof.
  intros T DT zero add ltb im sp n Lp Li ip md dr nc HS HW HD HC HR Hip Hmd Hdr HN.
  destruct (wp_exists (get_coarse_levelSet_DAG_CSC zero add ltb im sp n Lp Li ip md dr nc true) (fun '(k, (levelPtr, partPtr, nodePtr)) =>
    valid_schedule n (edge n Lp Li) k levelPtr partPtr nodePtr /\ 1 <= k <= n /\
    length levelPtr = n + 1 /\ length partPtr = n /\ length nodePtr = n /\
    (forall l, l < k -> levelPtr.[S l] - levelPtr.[l] <= target ip) /\ levelPtr.[k] - levelPtr.[k - 1] <= 1)) as ([k [[a b] c]] & E & H).
  - apply csc_wp; auto; [now apply one_diag_of_first|]. intros k flp fpp fnp A1 A2 A3 A4 A5 A6. destruct (A6 eq_refl) as [B1 B2].
    split; [auto|]. split; [auto|]. split; [auto|]. split; [auto|]. split; [auto|]. split; [exact B1|auto].
  - exists k, a, b, c. auto.
Qed.
Print Assumptions C97_csc_valid.

(** without bin packing: if there is an edge and the first slab may span two levels *)
Theorem C97_csc_unpacked : forall (T : Type) (DT : Dflt T) (zero : T) add ltb int_max sortp n Lp Li innerParts minLevelDist divRate nodeCost,
  (forall l, Permutation (sortp l) l) -> wf_csc n Lp Li -> diag_first n Lp Li -> ~ has_cycle (edge n Lp Li) ->
  (2 <= minLevelDist)%Z -> (exists u v, edge n Lp Li u v) ->
  innerParts <> 0%Z -> (1 <= divRate)%Z -> n <= length nodeCost ->
  exists k levelPtr partPtr nodePtr,
    get_coarse_levelSet_DAG_CSC zero add ltb int_max sortp n Lp Li innerParts minLevelDist divRate nodeCost false = Ok (k, (levelPtr, partPtr, nodePtr)) /\
    valid_schedule n (edge n Lp Li) k levelPtr partPtr nodePtr /\ 1 <= k <= n /\
    length levelPtr = n + 1 /\ length partPtr = n /\ length nodePtr = n.
Proof.
  intros T DT zero add ltb im sp n Lp Li ip md dr nc HS HW HD HC Hmd HE Hip Hdr HN.
  destruct (wp_exists (get_coarse_levelSet_DAG_CSC zero add ltb im sp n Lp Li ip md dr nc false) (fun '(k, (levelPtr, partPtr, nodePtr)) =>
    valid_schedule n (edge n Lp Li) k levelPtr partPtr nodePtr /\ 1 <= k <= n /\
    length levelPtr = n + 1 /\ length partPtr = n /\ length nodePtr = n)) as ([k [[a b] c]] & E & H).
  - apply csc_wp; auto; [now apply one_diag_of_first|lia|split; auto].
  - exists k, a, b, c. auto.
Qed.
Print Assumptions C97_csc_unpacked.

(** inputs for which it fails: the empty graph, one node, two nodes in a chain with minLevelDist = 1; without bin packing also graphs
    without edges *)
Theorem C97_empty_oob : forall (T : Type) (DT : Dflt T) (zero : T) add ltb int_max sortp Lp Li innerParts minLevelDist divRate nodeCost bin_pack,
  wf_csc 0 Lp Li -> get_coarse_levelSet_DAG_CSC zero add ltb int_max sortp 0 Lp Li innerParts minLevelDist divRate nodeCost bin_pack = Err OOB.
Proof.
  intros T DT zero add ltb im sp Lp Li ip md dr nc bp HW. unfold get_coarse_levelSet_DAG_CSC.
  change (level_set_multi_graphs 0 Lp Li 1) with (@Ok (nat * (list nat * list nat)) (0, ([0], []))). cbn [wr length repeat Nat.ltb Nat.leb bind Nat.add].
  rewrite !for_nil by lia. cbn [bind]. now rewrite C43_no_levels.
Qed.
Print Assumptions C97_empty_oob.

Theorem C97_single_oob : forall (T : Type) (DT : Dflt T) (zero : T) add ltb int_max sortp Lp Li innerParts minLevelDist divRate nodeCost bin_pack,
  wf_csc 1 Lp Li -> diag_first 1 Lp Li -> innerParts <> 0%Z -> (1 <= minLevelDist)%Z -> 1 <= length nodeCost ->
  get_coarse_levelSet_DAG_CSC zero add ltb int_max sortp 1 Lp Li innerParts minLevelDist divRate nodeCost bin_pack = Err OOB.
Proof.
  intros T DT zero add ltb im sp Lp Li ip md dr nc bp HW HD Hip Hmd Hnc.
  destruct HW as (W1 & W2 & W3 & W4 & W5). destruct (HD 0 ltac:(lia)) as (D1 & D2 & D3).
  destruct Lp as [|a [|b Lp]]; [simpl in W1; lia|simpl in W1; lia|]. change (a = 0) in W2. subst a. change (0 < b) in D1.
  change (Li.[0] = 0) in D2. change (forall k, 0 < k < b -> Li.[k] <> 0) in D3. change (forall k, k < b -> Li.[k] < 1) in W5. change (b <= length Li) in W4.
  assert (b = 1). { destruct (Nat.eq_dec b 1) as [|Hb]; [auto|]. exfalso. apply (D3 1); [lia|]. specialize (W5 1 ltac:(lia)). lia. }
  subst b. destruct Li as [|x Li]; [simpl in W4; lia|]. change (x = 0) in D2. subst x. destruct nc as [|c nc]; [simpl in Hnc; lia|].
  destruct ip as [|ip|ip]; [congruence| |]; (destruct md as [|md|md]; [lia| |lia]); (destruct md; destruct bp; reflexivity).
Qed.
Print Assumptions C97_single_oob.

(** chain 0 -> 1 with minLevelDist = 1; two nodes without edges, no bin packing *)
Theorem C97_csc_refuted :
  (exists Lp Li, wf_csc 2 Lp Li /\ diag_first 2 Lp Li /\ ~ has_cycle (edge 2 Lp Li) /\
     get_coarse_levelSet_DAG_CSC 0 Nat.add Nat.ltb 100 (fun l => l) 2 Lp Li 2 1 1 [1;1] true = Err OOB) /\
  (exists Lp Li, wf_csc 2 Lp Li /\ diag_first 2 Lp Li /\ ~ has_cycle (edge 2 Lp Li) /\
     get_coarse_levelSet_DAG_CSC 0 Nat.add Nat.ltb 100 (fun l => l) 2 Lp Li 2 2 1 [1;1] false = Err OOB).
Proof.
  split; [exists [0;2;3], [0;1;1]|exists [0;1;2], [0;1]]; (split; [now apply wf_cscb_ok|]; split; [now apply diag_firstb_ok|]; split; [|vm_compute; reflexivity]);
    intros (u & k & H); eapply lower_tri_acyclic; eauto; now apply lower_trib_ok.
Qed.
Print Assumptions C97_csc_refuted.

Theorem C97_no_parts_divides : forall (T : Type) (DT : Dflt T) (zero : T) add ltb int_max sortp n Lp Li minLevelDist divRate nodeCost,
  (forall l, Permutation (sortp l) l) -> wf_csc n Lp Li -> diag_first n Lp Li -> ~ has_cycle (edge n Lp Li) -> 3 <= n ->
  (1 <= minLevelDist)%Z -> (1 <= divRate)%Z -> n <= length nodeCost ->
  get_coarse_levelSet_DAG_CSC zero add ltb int_max sortp n Lp Li 0 minLevelDist divRate nodeCost true = Err DivZero.
Proof.
  intros T DT zero add ltb im sp n Lp Li md dr nc HS HW HD HC Hn Hmd Hdr HN.
  destruct (C97_csc_valid T DT zero add ltb im sp n Lp Li 1 md dr nc) as (k & lp & pp & np & E & _ & Hk & _); auto; [lia|].
  unfold get_coarse_levelSet_DAG_CSC in *. destruct (wr (repeat 0 (n + 1)) 0 0) as [fl|]; cbn [bind] in *; [|discriminate].
  destruct (level_set_multi_graphs n Lp Li 1) as [[lv [P S]]|]; cbn [bind] in *; [|discriminate]. do 2 step_in E.
  change (height_partitioning_DAG_trng lv P lv 0 md dr) with (height_partitioning_DAG_trng lv P lv 1 md dr).
  do 3 step_in E.
  match type of E with bind (for_ 0 ?k _ _) _ = _ => rename k into kk end.
  destruct (le_lt_dec kk 0) as [Hz|Hz].
  - assert (kk = 0) by lia. subst kk. rewrite for_nil in E by lia. discriminate.
  - rewrite for_step in * by lia.
    match type of E with bind (bind ?m _) _ = _ => destruct m as [s1|] eqn:E1; cbn [bind] in E; [|discriminate E] end.
    assert (SD : forall s s' lp ls n2l h sizes p2l l,
       csc_slab add ltb im sp true n Lp Li lp ls n2l nc h 1 sizes p2l l s = Ok s' -> csc_slab add ltb im sp true n Lp Li lp ls n2l nc h 0 sizes p2l l s = Err DivZero).
    { clear. unfold csc_slab. intros s s' lp ls n2l h sizes p2l l E. do 4 step_in E. do 4 step_in E. do 10 try step_in E. reflexivity. }
    now rewrite (SD _ _ _ _ _ _ _ _ _ E1).
Qed.
Print Assumptions C97_no_parts_divides.

(** three chains; the other hypotheses hold by C44_hyps *)
Example C97_ex : get_coarse_levelSet_DAG_CSC 0%Z Z.add Z.ltb INT_MAX sort_desc 9 chains3_p chains3_i 2 1 1 (repeat 1%Z 9) true =
    Ok (3, ([0; 1; 3; 4; 0; 0; 0; 0; 0; 0], [0; 3; 4; 6; 9; 0; 0; 0; 0], [0; 1; 2; 5; 3; 4; 6; 7; 8])) /\
  get_coarse_levelSet_DAG_CSC 0%Z Z.add Z.ltb INT_MAX sort_desc 9 chains3_p chains3_i 2 2 1 (repeat 1%Z 9) false =
    Ok (2, ([0; 3; 6; 0; 0; 0; 0; 0; 0; 0], [0; 2; 4; 6; 7; 8; 9; 0; 0], [0; 3; 1; 4; 2; 5; 6; 7; 8])) /\ diag_first 9 chains3_p chains3_i.
Proof. split; [vm_compute; reflexivity|]. split; [vm_compute; reflexivity|]. now apply diag_firstb_ok. Qed.

(** * C98: merging graphs *)

(** a graph given by its columns *)
Lemma cols_wf m cols p i N : rep cols p i -> length cols = m -> m < length p -> length (concat cols) <= length i ->
  (forall c x, c < m -> In x cols.[c] -> x < N) -> N = m -> wf_csc m p i.
Proof.
  intros [R1 R2] HL Hp Hi Hx ->. split; [auto|]. split; [rewrite R1 by lia; auto|]. split; [|split].
  - intros c Hc. rewrite !R1 by lia. rewrite concat_firstn_S by lia. rewrite app_length. lia.
  - rewrite R1 by lia. rewrite firstn_all2 by lia. auto.
  - intros k Hk. rewrite R1 in Hk by lia. rewrite firstn_all2 in Hk by lia. rewrite R2 by auto.
    pose proof (aget_In (concat cols) k Hk) as H. apply in_concat_aget in H. destruct H as (c & Hc & H). apply (Hx c); [lia|auto].
Qed.
Lemma cols_entry m cols p i c x : rep cols p i -> length cols = m -> m < length p -> length (concat cols) <= length i -> c < m ->
  (entry p i c x <-> In x cols.[c]).
Proof.
  intros HR HL Hp Hi Hc. rewrite <- (rep_slice cols p i c HR Hi ltac:(lia)). destruct HR as [R1 R2]. rewrite In_slice; [reflexivity| |].
  - rewrite !R1 by lia. rewrite concat_firstn_S by lia. rewrite app_length. lia.
  - rewrite R1 by lia. apply Nat.le_trans with (length (concat cols)); [|auto]. rewrite <- (firstn_skipn (S c) cols) at 2. rewrite concat_app, app_length. lia.
Qed.
Lemma shifted_In n off G j x : G_ok n G -> j < n -> (In x (shifted off G j) <-> exists v, entry (fst G) (snd G) j v /\ x = v + off).
Proof.
  intros (W1 & W2 & W3 & W4 & W5) Hj. unfold shifted. rewrite in_map_iff.
  pose proof (mono_le (aget (fst G)) n W3 (S j) n ltac:(lia) ltac:(lia)) as Hm. cbn beta in Hm. pose proof (W3 j Hj) as Hm2.
  split; intros (v & A & B); exists v.
  - apply In_slice in B; [|auto|lia]. split; [exact B|auto].
  - split; [auto|]. apply In_slice; [auto|lia|exact A].
Qed.
Lemma entry_lt n G j v : G_ok n G -> j < n -> entry (fst G) (snd G) j v -> v < n.
Proof.
  intros (W1 & W2 & W3 & W4 & W5) Hj (k & Hk & <-). apply W5.
  pose proof (mono_le (aget (fst G)) n W3 (S j) n ltac:(lia) ltac:(lia)) as Hm. cbn beta in Hm. lia.
Qed.

Section Merged.
Variables (n : nat) (Gs : list (list nat * list nat)) (ex : nat -> nat -> list nat) (D : nat -> nat -> nat -> Prop).
Hypothesis HG : forall q, q < length Gs -> G_ok n Gs.[q].
Hypothesis Hex : forall q j x, q < length Gs -> j < n -> (In x (ex q j) <-> exists v, S q < length Gs /\ v < n /\ D q j v /\ x = v + n * S q).
Variables (p i : list nat).
Local Notation K := (length Gs).
Hypothesis HR : rep (mcols n Gs ex (K * n)) p i.
Hypothesis Hp : length p = K * n + 1.
Hypothesis Hi : length (concat (mcols n Gs ex (K * n))) <= length i.

Lemma mcols_at q j : q < K -> j < n -> (mcols n Gs ex (K * n)).[j + n * q] = shifted (q * n) Gs.[q] j ++ ex q j.
Proof.
  intros Hq Hj. unfold mcols. rewrite aget_map by (rewrite seq_length; nia). rewrite aget_seq by nia. simpl.
  replace (j + n * q) with (q * n + j) by lia. now apply mcol_at.
Qed.
Lemma mcols_In q j x : q < K -> j < n ->
  (In x (mcols n Gs ex (K * n)).[j + n * q] <->
   (exists v, entry (fst Gs.[q]) (snd Gs.[q]) j v /\ x = v + n * q) \/ (exists v, S q < K /\ v < n /\ D q j v /\ x = v + n * S q)).
Proof.
  intros Hq Hj. rewrite mcols_at, in_app_iff, Hex by auto. rewrite (shifted_In n) by auto. rewrite (Nat.mul_comm q n). tauto.
Qed.
Lemma merged_wf : wf_csc (K * n) p i.
Proof.
  apply (cols_wf (K * n) (mcols n Gs ex (K * n)) p i (K * n)); auto; [apply mcols_length|lia|].
  intros c x Hc Hx. destruct (copy_form n K c Hc) as (j & q & Hj & Hq & ->). apply mcols_In in Hx; auto.
  destruct Hx as [(v & A & ->)|(v & A & B & _ & ->)]; apply copy_lt; auto. apply (entry_lt n Gs.[q] j); auto.
Qed.
Lemma merged_edge x y : (forall q u v, S q < K -> D q u v -> v < n) -> (edge (K * n) p i x y <-> side_edge n Gs D x y).
Proof.
  intros HD. split.
  - intros (Hx & He & Hne). destruct (copy_form n K x Hx) as (j & q & Hj & Hq & ->).
    apply (cols_entry (K * n) (mcols n Gs ex (K * n))) in He; auto; [|apply mcols_length|lia]. apply mcols_In in He; auto.
    destruct He as [(v & A & ->)|(v & A & B & C & ->)].
    + left. exists q, j, v. split; [auto|]. split; [|auto]. split; [auto|]. split; [auto|]. lia.
    + right. exists q, j, v. auto.
  - intros [(q & u & v & Hq & (Hu & He & Hne) & -> & ->)|(q & u & v & Hq & Hu & Hd & -> & ->)].
    + split; [apply copy_lt; auto|]. split; [|lia]. apply (cols_entry (K * n) (mcols n Gs ex (K * n))); auto; [apply mcols_length|lia|apply copy_lt; auto|].
      apply mcols_In; auto. left. exists v. auto.
    + pose proof (HD q u v Hq Hd) as Hv. split; [apply copy_lt; lia|]. split; [|nia].
      apply (cols_entry (K * n) (mcols n Gs ex (K * n))); auto; [apply mcols_length|lia|apply copy_lt; lia|].
      apply mcols_In; auto; [lia|]. right. exists v. auto.
Qed.
Lemma merged_col q j : q < K -> j < n ->
  slice i p.[j + n * q] p.[S (j + n * q)] = map (fun x => x + q * n) (slice (snd Gs.[q]) (fst Gs.[q]).[j] (fst Gs.[q]).[S j]) ++ ex q j.
Proof.
  intros Hq Hj. rewrite (rep_slice (mcols n Gs ex (K * n))); auto; [|rewrite mcols_length; apply copy_lt; auto]. now rewrite mcols_at.
Qed.
End Merged.

(** the graphs side by side; every node precedes the same node of the next graph; all cells of the result are used *)
Theorem C98_merge_graph : forall n Gs, 0 < length Gs -> (forall q, q < length Gs -> wf_csc n (fst Gs.[q]) (snd Gs.[q])) ->
  exists p i, merge_graph n Gs = Ok (p, i) /\ wf_csc (length Gs * n) p i /\ length p = length Gs * n + 1 /\ length i = p.[length Gs * n] /\
    (forall q j, q < length Gs -> j < n -> slice i p.[j + n * q] p.[S (j + n * q)] =
       map (fun x => x + q * n) (slice (snd Gs.[q]) (fst Gs.[q]).[j] (fst Gs.[q]).[S j]) ++ (if S q <? length Gs then [j + (q + 1) * n] else [])) /\
    (forall x y, edge (length Gs * n) p i x y <-> side_edge n Gs (fun _ u v => v = u /\ u < n) x y).
Proof.
  intros n Gs HL HG.
  destruct (wp_exists (merge_graph n Gs) (fun r => let '(p, i) := r in rep (mcols n Gs (next_copy n (length Gs)) (length Gs * n)) p i /\ length p = length Gs * n + 1 /\
     length i = length (concat (mcols n Gs (next_copy n (length Gs)) (length Gs * n))))) as ([p i] & E & HR & Hp & Hi).
  { apply merge_graph_wp; auto. }
  assert (Hex : forall q j x, q < length Gs -> j < n -> (In x (next_copy n (length Gs) q j) <-> exists v, S q < length Gs /\ v < n /\ (v = j /\ j < n) /\ x = v + n * S q)).
  { intros q j x Hq Hj. unfold next_copy. destruct (Nat.ltb_spec (S q) (length Gs)).
    - simpl. split; [intros [<-|[]]; exists j; repeat (split; [auto|]); lia|intros (v & _ & _ & [-> _] & ->); left; lia].
    - split; [intros []|intros (v & A & _); lia]. }
  exists p, i. split; [auto|]. split; [eapply (merged_wf n Gs (next_copy n (length Gs)) (fun _ u v => v = u /\ u < n)); eauto; lia|].
  split; [auto|]. split; [|split].
  - rewrite Hi. destruct HR as [R1 _]. rewrite R1 by (rewrite mcols_length; auto). rewrite firstn_all2; [auto|]. rewrite mcols_length. auto.
  - intros q j Hq Hj. apply (merged_col n Gs (next_copy n (length Gs)) (fun _ u v => v = u /\ u < n)); auto. lia.
  - intros x y. eapply (merged_edge n Gs (next_copy n (length Gs))); eauto; [lia|]. intros q u v _ [-> H]. auto.
Qed.
Print Assumptions C98_merge_graph.

(** graphs joined by dependence graphs.  The number of nonzeros of the result is larger than its last column pointer. *)
Theorem C98_merge_DAGs : forall n Gs Ds, 0 < length Gs -> (forall q, q < length Gs -> wf_csc n (fst Gs.[q]) (snd Gs.[q])) ->
  length Gs - 1 <= length Ds -> (forall q, S q < length Gs -> wf_csc n (fst Ds.[q]) (snd Ds.[q])) ->
  exists nnz p i, merge_DAGs_with_partial_order n Gs Ds = Ok (nnz, (p, i)) /\ wf_csc (length Gs * n) p i /\ length p = length Gs * n + 1 /\
    length i = nnz /\ nnz = p.[length Gs * n] + (length Gs - 1) * n /\
    (forall x y, edge (length Gs * n) p i x y <-> side_edge n Gs (fun q u v => entry (fst Ds.[q]) (snd Ds.[q]) u v) x y).
Proof.
  intros n Gs Ds HL HG HLD HD.
  destruct (wp_exists (merge_DAGs_with_partial_order n Gs Ds) (fun r => let '(nnz, (p, i)) := r in rep (mcols n Gs (next_dep n (length Gs) Ds) (length Gs * n)) p i /\
     length p = length Gs * n + 1 /\
     length i = length (concat (mcols n Gs (next_dep n (length Gs) Ds) (length Gs * n))) + (length Gs - 1) * n /\ length i = nnz)) as ([nnz [p i]] & E & HR & Hp & Hi & Hnnz).
  { apply merge_DAGs_wp; auto. }
  assert (Hex : forall q j x, q < length Gs -> j < n -> (In x (next_dep n (length Gs) Ds q j) <->
     exists v, S q < length Gs /\ v < n /\ ((entry (fst Ds.[q]) (snd Ds.[q]) j v) /\ j < n) /\ x = v + n * S q)).
  { intros q j x Hq Hj. unfold next_dep. destruct (Nat.ltb_spec (S q) (length Gs)) as [L|L].
    - rewrite (shifted_In n) by (auto; apply HD; auto). split.
      + intros (v & A & ->). exists v. split; [auto|]. split; [apply (entry_lt n Ds.[q] j); auto; apply HD; auto|]. split; [auto|]. lia.
      + intros (v & _ & _ & [A _] & ->). exists v. split; [auto|]. lia.
    - split; [intros []|intros (v & A & _); lia]. }
  assert (Hi' : length (concat (mcols n Gs (next_dep n (length Gs) Ds) (length Gs * n))) <= length i) by (rewrite Hi; apply Nat.le_add_r).
  exists nnz, p, i. split; [auto|]. split; [eapply (merged_wf n Gs (next_dep n (length Gs) Ds) (fun q u v => entry (fst Ds.[q]) (snd Ds.[q]) u v /\ u < n)); eauto|].
  split; [auto|]. split; [auto|]. split.
  - rewrite <- Hnnz, Hi. destruct HR as [R1 _]. rewrite R1 by (rewrite mcols_length; auto). rewrite firstn_all2; [auto|]. rewrite mcols_length. auto.
  - intros x y. rewrite (merged_edge n Gs (next_dep n (length Gs) Ds) (fun q u v => entry (fst Ds.[q]) (snd Ds.[q]) u v /\ u < n)); auto.
    + unfold side_edge. split; (intros [A|(q & u & v & A & B & C & F & G)]; [left; exact A|right; exists q, u, v]); tauto.
    + intros q u v Hq [A B]. apply (entry_lt n Ds.[q] u); auto. apply HD. auto.
Qed.
Print Assumptions C98_merge_DAGs.

(** no graphs: the size of the first one is read *)
Theorem C98_no_graphs : forall n, merge_graph n [] = Err OOB.
Proof. intros n. reflexivity. Qed.
Print Assumptions C98_no_graphs.

(** the levels of [K] copies are the levels of the graph that merge_graph builds of them *)
Theorem C98_levels_of_merged : forall n Lp Li K, wf_csc n Lp Li -> diag_first n Lp Li -> 1 <= K ->
  exists p i k levelPtr levelSet, merge_graph n (repeat (Lp, Li) K) = Ok (p, i) /\ level_set_multi_graphs n Lp Li K = Ok (k, (levelPtr, levelSet)) /\
    (forall l x, l < k /\ in_level levelPtr levelSet l x <-> x < K * n /\ depth_is (edge (K * n) p i) x l).
Proof.
  intros n Lp Li K HW HD HK.
  destruct (C98_merge_graph n (repeat (Lp, Li) K)) as (p & i & E & _ & _ & _ & _ & HE).
  { rewrite repeat_length. lia. } { intros q Hq. rewrite repeat_length in Hq. rewrite aget_repeat by auto. auto. }
  destruct (C96_multi_levels n Lp Li K HW HK) as (k & lp & ls & E2 & _ & _ & _ & _ & _ & _ & HL).
  exists p, i, k, lp, ls. split; [auto|]. split; [auto|]. rewrite repeat_length in HE.
  assert (EE : forall x y, copies_edge n K (tail_edge n Lp Li) x y <-> edge (K * n) p i x y).
  { intros x y. rewrite HE. unfold copies_edge, side_edge. rewrite repeat_length. split.
    - intros [(q & u & v & Hq & Hu & Hv & Ht & -> & ->)|(q & u & Hq & Hu & -> & ->)].
      + left. exists q, u, v. rewrite aget_repeat by auto. split; [auto|]. split; [now apply tail_edge_diag_first|auto].
      + right. exists q, u, u. auto.
    - intros [(q & u & v & Hq & He & -> & ->)|(q & u & v & Hq & Hu & [-> _] & -> & ->)].
      + left. rewrite aget_repeat in He by auto. cbn [fst snd] in He. apply tail_edge_diag_first in He; auto.
        destruct (tl_lt n K Lp Li HW HK _ _ He). exists q, u, v. repeat (split; [auto|]). auto.
      + right. exists q, u. auto. }
  assert (EC : forall u v d, chain (copies_edge n K (tail_edge n Lp Li)) u v d <-> chain (edge (K * n) p i) u v d).
  { intros u v d. split; intros H; induction H; try constructor; econstructor; eauto; now apply EE. }
  intros l x. rewrite HL. unfold depth_is. split; intros [A [[u B] C]]; (split; [auto|]; split; [exists u; now apply EC|]); intros w d Hd; apply (C w); now apply EC.
Qed.
Print Assumptions C98_levels_of_merged.

Example C98_ex : merge_graph 2 (repeat ([0;2;3], [0;1; 1]) 2) = Ok ([0;3;5;7;8], [0;1;2; 1;3; 2;3; 3]) /\
  level_set_multi_graphs 2 [0;2;3] [0;1;1] 2 = Ok (3, ([0;1;3;4], [0;1;2;3])) /\
  merge_DAGs_with_partial_order 2 [([0;2;3], [0;1; 1]); ([0;1;2], [0; 1])] [([0;1;1], [1])] = Ok (8, ([0;3;4;5;6], [0;1;3; 1; 2; 3; 0; 0])).
Proof. vm_compute. auto. Qed.
