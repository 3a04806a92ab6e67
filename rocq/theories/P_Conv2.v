(** C108: the schedule of supernodes for any grouping: what a part lists, and a supernode split between groups is listed twice. *)
From Verif Require Import Base Lib Lib2 Spec Check CheckS SpecSolve M_SpTRSV L_SpTRSV L_SpTRSV2 P_SpTRSV M_Conv P_Conv.
From Coq Require Import ZifyBool ZifyNat Permutation.

Lemma met_In inv l : forall prev s, In s (met inv prev l) -> exists x, In x l /\ inv.[x] = s.
Proof.
  induction l as [|x l IH]; intros prev s H; [easy|]. cbn [met] in H. destruct (match prev with Some q => inv.[x] =? q | None => false end).
  - destruct (IH _ _ H) as (y & Hy & E). exists y. split; [now right|auto].
  - destruct H as [<-|H]; [exists x; split; [now left|auto]|]. destruct (IH _ _ H) as (y & Hy & E). exists y. split; [now right|auto].
Qed.
Lemma met_In2 inv l : forall prev x, In x l -> prev <> Some inv.[x] -> In inv.[x] (met inv prev l).
Proof.
  induction l as [|y l IH]; intros prev x Hx Hp; [easy|]. destruct Hx as [->|Hx]; cbn [met].
  - destruct prev as [q|]; [|now left]. destruct (Nat.eqb_spec inv.[x] q); [congruence|now left].
  - destruct (match prev with Some q => inv.[y] =? q | None => false end) eqn:E; [now apply IH|].
    destruct (Nat.eq_dec inv.[y] inv.[x]) as [E2|E2]; [now left|]. right. apply IH; [auto|congruence].
Qed.

(** Whatever the groups are, a part lists the supernodes its groups meet; one that two groups meet is listed twice *)
Theorem C108_any_groups :
  forall n ns ng sp gp gs no lp pp np, supernodes n ns sp -> group_partition n ng gp gs -> ng < length gp -> n <= length gs ->
  sched_wf ng no lp pp np -> sched_complete ng np ->
  exists pp' np', convertCNScheduleToSuperNode n ns gp gs sp no lp pp np = Ok (pp', np') /\
    pp'.[0] = 0 /\ (forall p, p < lp.[no] -> pp'.[p] <= pp'.[S p]) /\ pp'.[lp.[no]] = length np' /\
    (forall p s, p < lp.[no] -> s < ns -> (In s (slice np' pp'.[p] pp'.[S p]) <->
       exists g x, In g (slice np pp.[p] pp.[S p]) /\ In x (slice gs gp.[g] gp.[S g]) /\ In x (snodes sp s))) /\
    (forall s g h x y, s < ns -> g < ng -> h < ng -> g <> h -> In x (snodes sp s) -> In y (snodes sp s) ->
       In x (slice gs gp.[g] gp.[S g]) -> In y (slice gs gp.[h] gp.[S h]) ->
       exists i j, i < j < length np' /\ np'.[i] = s /\ np'.[j] = s).
Proof.
  intros n ns ng sp gp gs no lp pp np SP GP LG LS SW SC.
  pose proof SW as (S1 & S2 & S3 & S4 & S5 & S6 & S7 & S8). pose proof SC as (C1 & C2). pose proof GP as (G1 & G2 & G3 & G4 & G5).
  set (seg := fun g => slice gs gp.[g] gp.[S g]).
  assert (HG : forall g, g < ng -> gp.[g] <= gp.[S g] /\ gp.[S g] <= n) by (intros; eapply group_le; eauto).
  set (PI := fun inv p (st : list nat * list nat) => let '(np', nodes) := st in length np' = length pp /\ np'.[0] = 0 /\
     np'.[p] = length nodes /\ (forall q, q < p -> np'.[q] <= np'.[S q]) /\
     nodes = flat_map (fun g => met inv None (seg g)) (slice np 0 pp.[p]) /\
     forall q, q < p -> slice nodes np'.[q] np'.[S q] = flat_map (fun g => met inv None (seg g)) (slice np pp.[q] pp.[S q])).
  assert (G : wp (convertCNScheduleToSuperNode n ns gp gs sp no lp pp np) (fun st => exists inv, is_inv n ns sp inv /\ PI inv lp.[no] st)).
  { unfold convertCNScheduleToSuperNode. wp1. apply (supernode_inverse_wp n ns sp SP). intros inv HI.
    apply wp_for with (I := fun l => PI inv lp.[l]); [lia| | |]; eauto.
    - rewrite S2. unfold PI. splits; auto; try (intros; lia). now rewrite S5, slice_nil by lia.
    - intros l st Hl HJ. pose proof (S3 l ltac:(lia)). pose proof (mono_le (aget lp) no S3 (S l) no ltac:(lia) ltac:(lia)).
      wp1. wp1; [lia|]. wp1. wp1; [lia|]. apply wp_for with (I := PI inv); auto.
      intros p [np' nodes] Hp (J1 & J2 & J3 & J4 & J6 & J7). pose proof (S6 p ltac:(lia)).
      pose proof (mono_le (aget pp) lp.[no] S6 (S p) lp.[no] ltac:(lia) ltac:(lia)) as HM. rewrite S7 in HM.
      wp1. wp1; [lia|]. wp1. wp1; [lia|]. wp1.
      apply wp_for with (I := fun k st => let '(nd, c) := st in exists l, nd = nodes ++ l /\ c = length l /\
         l = flat_map (fun g => met inv None (seg g)) (slice np pp.[p] k)); [lia| | |].
      + exists []. rewrite app_nil_r, slice_nil by lia. splits; auto.
      + intros k [nd c] Hk (l0 & -> & -> & E0). pose proof (C1 k ltac:(lia)) as Hg. destruct (HG _ Hg).
        wp1. wp1; [lia|]. eapply conv_group_wp; eauto; try lia. { intros q Hq. apply G4. lia. }
        cbv zeta. fold (seg np.[k]). exists (l0 ++ met inv None (seg np.[k])). splits.
        * now rewrite app_assoc.
        * now rewrite app_length.
        * rewrite (slice_app np pp.[p] k (S k)) by lia. rewrite flat_map_app. f_equal; [auto|].
          rewrite (slice_cons np k (S k)), (slice_nil np (S k) (S k)) by lia. cbn [flat_map]. now rewrite app_nil_r.
      + intros [nd c] (l0 & -> & -> & E0). wp1. wp1; [lia|]. wp1. wp1; [lia|]. wp1.
        assert (LN : forall q, q <= p -> np'.[q] <= length nodes).
        { intros q Hq. rewrite <- J3. now apply (mono_le (aget np') p J4). }
        unfold PI. rewrite upd_length. splits; auto.
        * rewrite aget_upd_ne by lia. auto.
        * rewrite aget_upd_eq by lia. rewrite app_length. lia.
        * intros q Hq. destruct (Nat.eq_dec q p) as [->|].
          -- rewrite aget_upd_eq, aget_upd_ne by lia. lia.
          -- rewrite !aget_upd_ne by lia. apply J4. lia.
        * rewrite (slice_app np 0 pp.[p] pp.[S p]) by lia. rewrite !flat_map_app. congruence.
        * intros q Hq. destruct (Nat.eq_dec q p) as [->|].
          -- rewrite aget_upd_eq, aget_upd_ne by lia. rewrite J3.
             replace (slice (nodes ++ l0) (length nodes) (length l0 + length nodes)) with l0; auto.
             unfold slice. replace (length l0 + length nodes - length nodes) with (length l0) by lia.
             rewrite skipn_app, skipn_all, Nat.sub_diag. cbn [skipn app]. now rewrite firstn_all.
          -- rewrite !aget_upd_ne by lia. rewrite <- J7 by lia. unfold slice.
             pose proof (LN q ltac:(lia)). pose proof (LN (S q) ltac:(lia)).
             rewrite skipn_app, firstn_app, skipn_length. replace (np'.[S q] - np'.[q] - (length nodes - np'.[q])) with 0 by lia.
             cbn [firstn]. now rewrite app_nil_r. }
  apply wp_ok in G. destruct G as ((pp' & np') & E & inv & (I1 & I2) & (J1 & J2 & J3 & J4 & J6 & J7)). exists pp', np'. splits; auto.
  - intros p s Hp Hs. rewrite J7 by auto. rewrite in_flat_map. split.
    + intros (g & Hg & Hm). destruct (met_In _ _ _ _ Hm) as (x & Hx & Ex). exists g, x. splits; auto.
      assert (Hgn : g < ng).
      { pose proof (mono_le (aget pp) lp.[no] S6 (S p) lp.[no] ltac:(lia) ltac:(lia)) as HM. rewrite S7 in HM. pose proof (S6 p Hp).
        apply In_slice in Hg; [|lia|lia]. destruct Hg as (k & Hk & <-). apply C1. lia. }
      assert (Hxn : x < n). { destruct (HG g Hgn). apply In_slice in Hx; [|lia|lia]. destruct Hx as (k & Hk & <-). apply G4. lia. }
      pose proof SP as (P1 & P2 & P3 & P4).
      assert (X : exists s', s' < ns /\ In x (snodes sp s')).
      { assert (G : forall m, m <= ns -> x < sp.[m] -> exists s', s' < m /\ In x (snodes sp s')).
        { induction m as [|m IH]; intros Hmm Hlt; [rewrite P2 in Hlt; lia|]. destruct (le_lt_dec sp.[m] x) as [L|L].
          - exists m. split; [lia|]. apply (in_snodes n ns sp SP); [lia|lia].
          - destruct (IH ltac:(lia) L) as (s' & A & B). exists s'. split; [lia|auto]. }
        apply (G ns); [lia|rewrite P4; auto]. }
      destruct X as (s' & Hs' & Hx'). assert (s' = s) as <- by (rewrite <- Ex; symmetry; now apply I2). auto.
    + intros (g & x & Hg & Hx & Hxs). exists g. split; [auto|]. rewrite <- (I2 s x Hs Hxs). apply met_In2; [auto|discriminate].
  - intros s g h x y Hs Hg Hh Hne Hxs Hys Hx Hy.
    assert (Fg : In s (met inv None (seg g))) by (rewrite <- (I2 s x Hs Hxs); apply met_In2; [auto|discriminate]).
    assert (Fh : In s (met inv None (seg h))) by (rewrite <- (I2 s y Hs Hys); apply met_In2; [auto|discriminate]).
    rewrite S7 in J6. rewrite J6.
    assert (AL : forall u, u < ng -> exists a, a < ng /\ np.[a] = u).
    { intros u Hu. assert (HLn : length (slice np 0 ng) = ng) by (rewrite slice_length; lia).
      assert (PN : Permutation (slice np 0 ng) (seq 0 ng)).
      { apply NoDup_Permutation_bis.
        - apply NoDup_of_aget. rewrite HLn. intros i j Hi Hj. rewrite !aget_slice by lia. simpl. auto.
        - rewrite HLn, seq_length. lia.
        - intros z Hz. apply In_slice in Hz; [|lia|lia]. destruct Hz as (k & Hk & <-). apply in_seq. specialize (C1 k). lia. }
      assert (In u (slice np 0 ng)) as Hi by (apply (Permutation_in _ (Permutation_sym PN)), in_seq; lia).
      apply In_slice in Hi; [|lia|lia]. destruct Hi as (k & Hk & <-). exists k. split; [lia|auto]. }
    destruct (AL g Hg) as (a & Ha & Ea). destruct (AL h Hh) as (b & Hb & Eb).
    assert (T : forall a b, a < b -> b < ng -> In s (met inv None (seg np.[a])) -> In s (met inv None (seg np.[b])) ->
      exists i j, i < j < length (flat_map (fun g => met inv None (seg g)) (slice np 0 ng)) /\
        (flat_map (fun g => met inv None (seg g)) (slice np 0 ng)).[i] = s /\ (flat_map (fun g => met inv None (seg g)) (slice np 0 ng)).[j] = s).
    { clear a b Ha Hb Ea Eb. intros a b Hab Hb F1 F2. rewrite (slice_app np 0 (S a) ng) by lia. rewrite flat_map_app.
      set (A := flat_map _ (slice np 0 (S a))). set (B := flat_map _ (slice np (S a) ng)).
      assert (HA : In s A). { apply in_flat_map. exists np.[a]. split; [apply In_slice; [lia|lia|]; exists a; split; [lia|auto]|auto]. }
      assert (HB : In s B). { apply in_flat_map. exists np.[b]. split; [apply In_slice; [lia|lia|]; exists b; split; [lia|auto]|auto]. }
      apply In_nth with (d := dflt) in HA, HB. destruct HA as (i & Hi & Ei), HB as (j & Hj & Ej). exists i, (length A + j). rewrite app_length.
      split; [lia|]. split; [rewrite aget_app1 by lia; exact Ei|]. rewrite aget_app2 by lia. replace (length A + j - length A) with j by lia. exact Ej. }
    destruct (Nat.lt_total a b) as [H|[->|H]].
    + apply (T a b); auto; congruence.
    + congruence.
    + apply (T b a); auto; congruence.
Qed.
Print Assumptions C108_any_groups.

(** supernode 1 = 1 2 is split between the groups 0 1 and 2 3 *)
Example C108_any_groups_case :
  supernodes 4 3 [0;1;3;4] /\ group_partition 4 2 [0;2;4] [0;1;2;3] /\ sched_wf 2 1 [0;1] [0;2] [0;1] /\ sched_complete 2 [0;1] /\
  In 1 (snodes [0;1;3;4] 1) /\ In 2 (snodes [0;1;3;4] 1) /\ In 1 (slice [0;1;2;3] 0 2) /\ In 2 (slice [0;1;2;3] 2 4) /\
  convertCNScheduleToSuperNode 4 3 [0;2;4] [0;1;2;3] [0;1;3;4] 1 [0;1] [0;2] [0;1] = Ok ([0;4], [0;1;1;2]).
Proof.
  assert (VS : valid_schedule 2 (fun _ _ => False) 1 [0;1] [0;2] [0;1]).
  { eapply valid_scheduleb_ok with (eb := fun _ _ => false); [intros ? ? []|vm_compute; reflexivity]. }
  splits; try apply VS; try (cbn; tauto).
  - unfold supernodes. splits; try (cbn; lia). intros s Hs. destruct s as [|[|[|s]]]; cbn; lia.
  - apply level_partitionb_ok. vm_compute. reflexivity.
Qed.
