(** Properties C127 (GreedyGrouping) and C128 (mergeSmallGroups). *)
From Coq Require Import ZifyBool ZifyNat.
From Verif Require Import Base Lib Lib2 Spec Check M_Greedy L_Greedy L_Bfs.

(** * Specification *)

(** [ng] groups of consecutive nodes: group [g] is [gset[g]..gset[g+1]), [inv] is the group of every node *)
Definition intervals (n ng : nat) (gset inv : list nat) : Prop :=
  length gset = S ng /\ length inv = n /\ gset.[0] = 0 /\ gset.[ng] = n /\ (forall g, g < ng -> gset.[g] < gset.[S g]) /\
  forall v, v < n -> inv.[v] < ng /\ gset.[inv.[v]] <= v < gset.[S inv.[v]].

(** a column [u <= v] of the group of [v] has the entry [v+1], at most [m] below [u] *)
Definition joins (m : Z) (Ap Ai inv : list nat) (v : nat) : Prop :=
  exists u, u <= v /\ inv.[u] = inv.[v] /\ entry Ap Ai u (S v) /\ (Z.of_nat (S v) <= m + Z.of_nat u)%Z.

(** an entry of a column of group [g] in a row of the later group [h] *)
Definition later_edge (n : nat) (Ap Ai inv : list nat) (g h : nat) : Prop :=
  g < h /\ exists u v, u < n /\ entry Ap Ai u v /\ inv.[u] = g /\ inv.[v] = h.

(** * C127 *)

Lemma interval_unique n ng gset inv g v : intervals n ng gset inv -> g < ng -> gset.[g] <= v < gset.[S g] -> v < n /\ inv.[v] = g.
Proof.
  intros (L1 & L2 & G0 & Gn & GI & V) Hg Hv.
  assert (MO : forall i j, i <= j -> j <= ng -> gset.[i] <= gset.[j]).
  { intros i j. apply (mono_le (aget gset) ng). intros k Hk. pose proof (GI k Hk). lia. }
  assert (v < n) by (pose proof (MO (S g) ng ltac:(lia) ltac:(lia)); lia). split; auto.
  destruct (V v H) as (V1 & V2). destruct (Nat.lt_trichotomy inv.[v] g) as [C|[C|C]]; auto; exfalso.
  - pose proof (MO (S inv.[v]) g ltac:(lia) ltac:(lia)). lia.
  - pose proof (MO (S g) inv.[v] ltac:(lia) ltac:(lia)). lia.
Qed.

Lemma range_col (Ap : list nat) a b k : a <= b -> (forall i, a <= i < b -> Ap.[i] <= Ap.[S i]) -> Ap.[a] <= k < Ap.[b] -> exists v, a <= v < b /\ Ap.[v] <= k < Ap.[S v].
Proof.
  intros H. induction b as [|b IH]; intros M Hk; [assert (a = 0) by lia; subst; lia|].
  destruct (Nat.eq_dec a (S b)) as [->|]; [lia|]. destruct (Nat.le_gt_cases Ap.[b] k).
  - exists b. lia.
  - destruct IH as (v & Hv & R); try lia; [intros i Hi; apply M; lia|]. exists v. split; [lia|auto].
Qed.

(** the lists of children *)
Definition good_children (n : nat) (Ap Ai inv : list nat) (g : nat) (c : list nat) : Prop :=
  sorted_lt c /\ forall h, In h c <-> h = g \/ later_edge n Ap Ai inv g h.

Lemma finalize_wp n ng Ap Ai gset inv : wf_csc n Ap Ai -> intervals n ng gset inv ->
  wp (finalize_groups ng Ap Ai gset inv) (fun '(ch, total) => length ch = ng /\ total = list_sum (map (@length nat) ch) /\
    forall g, g < ng -> good_children n Ap Ai inv g ch.[g]).
Proof.
  intros (W1 & W2 & W3 & W4 & W5) IV. pose proof IV as (L1 & L2 & G0 & Gn & GI & V).
  assert (MO : forall i j, i <= j -> j <= ng -> gset.[i] <= gset.[j]).
  { intros i j. apply (mono_le (aget gset) ng). intros k Hk. pose proof (GI k Hk). lia. }
  assert (MA : forall i j, i <= j -> j <= n -> Ap.[i] <= Ap.[j]).
  { intros i j. apply (mono_le (aget Ap) n). auto. }
  unfold finalize_groups. apply (wp_for (fun k '(ch, total) => length ch = k /\ total = list_sum (map (@length nat) ch) /\
    forall g, g < k -> good_children n Ap Ai inv g ch.[g])); [lia| | |auto].
  - splits; auto. intros; lia.
  - intros g [ch total] Hg (I1 & I2 & I3). assert (Hg' : g < ng) by lia. pose proof (GI g Hg') as GI'. pose proof (MO (S g) ng ltac:(lia) ltac:(lia)) as GM.
    apply wp_bind. apply wp_rd; [lia|]. apply wp_bind. apply wp_rd; [lia|]. apply wp_bind. apply wp_rd; [lia|]. apply wp_bind. apply wp_rd; [lia|].
    pose proof (MA gset.[g] gset.[S g] ltac:(lia) ltac:(lia)) as M1. pose proof (MA gset.[S g] n ltac:(lia) ltac:(lia)) as M2.
    apply wp_bind. apply (wp_for (fun j kids => NoDup kids /\ forall h, In h kids <-> exists k, Ap.[gset.[g]] <= k < j /\ gset.[S g] <= Ai.[k] /\ inv.[Ai.[k]] = h)); [lia| | |].
    + split; [constructor|]. intros h. split; [intros []|]. intros (k & Hk & _). lia.
    + intros j kids Hj (K1 & K2). apply wp_bind. apply wp_rd; [lia|]. pose proof (W5 j ltac:(lia)) as HJ. destruct (Nat.leb_spec gset.[S g] Ai.[j]) as [C|C].
      * apply wp_bind. apply wp_rd; [lia|]. apply wp_ret. split; [now apply set_insert_NoDup|]. intros h. rewrite set_insert_In, K2. split.
        -- intros [->|(k & Hk & R)]; [exists j; splits; auto; lia|exists k; split; [lia|auto]].
        -- intros (k & Hk & R1 & R2). destruct (Nat.eq_dec k j) as [->|]; [left; auto|right]. exists k. split; [lia|auto].
      * apply wp_ret. split; auto. intros h. rewrite K2. split; intros (k & Hk & R1 & R2).
        -- exists k. split; [lia|auto].
        -- destruct (Nat.eq_dec k j) as [->|]; [lia|]. exists k. split; [lia|auto].
    + intros kids (K1 & K2). apply wp_ret.
      assert (KG : forall h, In h kids -> g < h).
      { intros h Hh. apply K2 in Hh. destruct Hh as (k & Hk & R1 & <-). pose proof (W5 k ltac:(lia)) as HK. destruct (V Ai.[k] HK) as (V1 & V2).
        destruct (Nat.le_gt_cases inv.[Ai.[k]] g) as [C|]; auto. pose proof (MO (S inv.[Ai.[k]]) (S g) ltac:(lia) ltac:(lia)). lia. }
      rewrite app_length, map_app, list_sum_app'. cbn [length map list_sum fold_right]. splits; try lia.
      intros g' Hg2. destruct (Nat.eq_dec g' g) as [->|]; [rewrite app1_new by lia|rewrite app1_old by lia; apply I3; lia]. split.
      * apply sorted_le_NoDup_lt; [apply isort_sorted|]. eapply Permutation_NoDup; [apply isort_perm|].
        eapply Permutation_NoDup; [apply Permutation_cons_append|]. constructor; auto. intros C. apply KG in C. lia.
      * intros h. rewrite isort_In, in_app_iff. cbn [In]. rewrite K2. split.
        -- intros [(k & Hk & R1 & R2)|[->|[]]]; auto. right. split; [apply KG, K2; eauto|].
           destruct (range_col Ap gset.[g] gset.[S g] k) as (v & Hv & Hkv); try lia; [intros i Hi; apply W3; lia|].
           destruct (interval_unique n ng gset inv g v IV Hg' Hv) as (Hv1 & Hv2). exists v, Ai.[k]. splits; auto. exists k. auto.
        -- intros [->|(Hgh & u & v & Hu & (k & Hk & <-) & Eu & Ev)]; auto. left. exists k. destruct (V u Hu) as (V1 & V2). rewrite Eu in V2.
           pose proof (MA gset.[g] u ltac:(lia) ltac:(lia)). pose proof (MA (S u) gset.[S g] ltac:(lia) ltac:(lia)). splits; auto; try lia.
           assert (HK : Ai.[k] < n) by (apply W5; lia). destruct (V Ai.[k] HK) as (V3 & V4). rewrite Ev in *. pose proof (MO (S g) h ltac:(lia) ltac:(lia)). lia.
Qed.

(** C127.  startGrouping cuts the nodes into intervals: node v+1 is in the group of v exactly if a column of that group up
    to v has an entry in row v+1, at most max_search_space_size below its diagonal.  The children of a group are itself and
    the later groups its columns have entries in. *)
Theorem C127_groups : forall n m Ap Ai, wf_csc n Ap Ai ->
  exists gset inv ng ch total, startGrouping n m Ap Ai = Ok (gset, inv, ng, ch, total) /\
    intervals n ng gset inv /\ (forall v, S v < n -> (inv.[S v] = inv.[v] <-> joins m Ap Ai inv v)) /\
    length ch = ng /\ total = list_sum (map (@length nat) ch) /\ forall g, g < ng -> good_children n Ap Ai inv g ch.[g].
Proof.
  intros n m Ap Ai W. destruct (greedy_loop n m Ap Ai W) as (gset & inv & pool & cur & g & E & I).
  destruct I as (I1 & I2 & I3 & I4 & I5 & I6 & I6' & I7 & I8 & I9 & I10 & _).
  specialize (I6' eq_refl).
  assert (IV : intervals n g gset inv).
  { unfold intervals. splits; auto. intros v Hv. destruct (I7 v Hv) as (J1 & J2 & J3). assert (inv.[v] < g) by (destruct (Nat.eq_dec inv.[v] g) as [C|]; [rewrite C in J2; lia|lia]). auto. }
  assert (G : wp (startGrouping n m Ap Ai) (fun '(gset', inv', ng', ch, total) => gset' = gset /\ inv' = inv /\ ng' = g /\
     length ch = g /\ total = list_sum (map (@length nat) ch) /\ forall k, k < g -> good_children n Ap Ai inv k ch.[k])).
  { unfold startGrouping. rewrite E. cbn [bind]. replace (length gset - 1) with g by lia. apply wp_bind.
    eapply wp_mono; [apply (finalize_wp n g Ap Ai gset inv W IV)|]. intros [ch total] (F1 & F2 & F3). apply wp_ret. splits; auto. }
  apply wp_ok in G. destruct G as ([[[[gset' inv'] ng'] ch] total] & E' & -> & -> & -> & F1 & F2 & F3).
  exists gset, inv, g, ch, total. splits; auto. intros v Hv.
  pose proof IV as (L1 & L2 & G0 & Gn & GI & V). destruct (V v ltac:(lia)) as (V1 & V2). destruct (V (S v) Hv) as (V3 & V4).
  assert (J : joins m Ap Ai inv v <-> cand m Ap Ai gset.[inv.[v]] (S v) (S v)).
  { split.
    - intros (u & Hu & Eu & (k & Hk & Ek) & B). destruct (V u ltac:(lia)) as (U1 & U2). rewrite Eu in U2. exists u, k. splits; auto; lia.
    - intros (u & k & Hu & Hk & Ek & Hlt & B). destruct (interval_unique n g gset inv inv.[v] u IV V1 ltac:(lia)) as (U1 & U2).
      exists u. splits; auto; [lia|]. exists k. auto. }
  rewrite J. split.
  - intros Eq. apply I9; auto; [lia|]. rewrite Eq in V4. lia.
  - intros C. destruct (Nat.lt_ge_cases (S v) gset.[S inv.[v]]) as [Lt|Ge].
    + destruct (interval_unique n g gset inv inv.[v] (S v) IV V1 ltac:(lia)). auto.
    + exfalso. apply (I8 inv.[v] V1). replace gset.[S inv.[v]] with (S v) by lia. auto.
Qed.
Print Assumptions C127_groups.

(** getGroupedCSCFormat packs the children: for a lower triangular matrix the result is a well formed lower triangular
    matrix of groups, with the diagonal and exactly the edges between the groups. *)
Theorem C127_group_matrix : forall n m Ap Ai gset inv ng ch total gp gi, wf_csc n Ap Ai -> lower_tri n Ap Ai ->
  startGrouping n m Ap Ai = Ok (gset, inv, ng, ch, total) -> length gp = S ng -> length gi = total ->
  exists P X, getGroupedCSCFormat ng ch gp gi = Ok (P, X) /\ length P = S ng /\ length X = P.[ng] /\ wf_csc ng P X /\ sorted_cols ng P X /\ lower_tri ng P X /\
    forall g h, g < ng -> (entry P X g h <-> g = h \/ exists u v, edge n Ap Ai u v /\ inv.[u] = g /\ inv.[v] = h).
Proof.
  intros n m Ap Ai gset inv ng ch total gp gi W LT E Lp Li.
  destruct (C127_groups n m Ap Ai W) as (gset' & inv' & ng' & ch' & total' & E' & IV & _ & LC & LTo & GC).
  rewrite E in E'. injection E' as <- <- <- <- <-. pose proof IV as (L1 & L2 & G0 & Gn & GI & V). pose proof W as (W1 & W2 & W3 & W4 & W5).
  set (off := fun g => list_sum (map (@length nat) (firstn g ch))).
  assert (OS : forall g, g < ng -> off (S g) = off g + length ch.[g]).
  { intros g Hg. unfold off. assert (FS : firstn (S g) ch = firstn g ch ++ [ch.[g]]).
    { clear - LC Hg. unfold aget. rewrite <- LC in Hg. clear LC. revert g Hg. induction ch as [|c l IH]; intros g Hg; simpl in Hg; [lia|].
      destruct g; [reflexivity|]. cbn [firstn app nth]. f_equal. apply IH. lia. }
    rewrite FS, map_app, list_sum_app'. simpl. lia. }
  assert (ON : off ng = total) by (unfold off; rewrite firstn_all2 by lia; auto).
  assert (OM : forall i j, i <= j -> j <= ng -> off i <= off j) by (apply (mono_le off ng); intros k Hk; rewrite OS by auto; lia).
  assert (G : wp (getGroupedCSCFormat ng ch gp gi) (fun '(P, X) => length P = S ng /\ length X = total /\ (forall g, g <= ng -> P.[g] = off g) /\
     forall g i, g < ng -> i < length ch.[g] -> X.[off g + i] = ch.[g].[i])).
  { unfold getGroupedCSCFormat. apply wp_bind. apply wp_wr; [lia|].
    apply (wp_for (fun k '(P, X) => length P = S ng /\ length X = total /\ (forall g, g <= k -> P.[g] = off g) /\
       forall g i, g < k -> i < length ch.[g] -> X.[off g + i] = ch.[g].[i])); [lia| | |auto].
    - rewrite upd_length. splits; auto; [|intros; lia]. intros g Hg. replace g with 0 by lia. now rewrite aget_upd_eq by lia.
    - intros g [P X] Hg (P1 & P2 & P3 & P4). apply wp_bind. apply wp_rd; [lia|]. apply wp_bind. apply wp_rd; [lia|]. apply wp_bind. apply wp_wr; [lia|].
      apply wp_bind. apply wp_rd; [rewrite upd_length; lia|]. apply wp_bind. rewrite aget_upd_ne by lia. rewrite P3 by lia.
      pose proof (OS g ltac:(lia)) as OS'. pose proof (OM (S g) ng ltac:(lia) ltac:(lia)) as OM'.
      assert (F : wp (foreach ch.[g] (fun x '(gi, k) => gi <- wr gi k x ;; Ok (gi, S k)) (X, off g))
        (fun '(X', _) => length X' = total /\ (forall i, i < off g -> X'.[i] = X.[i]) /\ forall i, i < length ch.[g] -> X'.[off g + i] = ch.[g].[i])).
      { apply (wp_foreach (fun (dn : list nat) '(X', k) => k = off g + length dn /\ length X' = total /\
          (forall i, i < off g -> X'.[i] = X.[i]) /\ forall i, i < length dn -> X'.[off g + i] = dn.[i])).
        - cbn [length]. splits; auto; intros; lia.
        - intros dn x l2 [X' k] ED (-> & Q1 & Q2 & Q3). assert (LD := f_equal (@length nat) ED). rewrite app_length in LD. cbn [length] in LD.
          apply wp_bind. apply wp_wr; [lia|]. apply wp_ret. rewrite app_length, upd_length. cbn [length]. splits; auto; try lia.
          + intros i Hi. rewrite aget_upd_ne by lia. auto.
          + intros i Hi. destruct (Nat.eq_dec i (length dn)) as [->|]; [rewrite aget_upd_eq by lia; now rewrite app1_new by auto|].
            rewrite aget_upd_ne by lia. rewrite app1_old by lia. apply Q3. lia.
        - intros [X' k] (-> & Q1 & Q2 & Q3). auto. }
      eapply wp_mono; [exact F|]. intros [X' k] (F1 & F2 & F3). apply wp_ret. rewrite upd_length. splits; auto.
      + intros g' Hg'. destruct (Nat.eq_dec g' (S g)) as [->|]; [rewrite aget_upd_eq by lia; lia|]. rewrite aget_upd_ne by auto. apply P3. lia.
      + intros g' i Hg' Hi. destruct (Nat.eq_dec g' g) as [->|]; auto. rewrite F2; [apply P4; auto; lia|].
        pose proof (OS g' ltac:(lia)). pose proof (OM (S g') g ltac:(lia) ltac:(lia)). lia. }
  apply wp_ok in G. destruct G as ([P X] & EG & P1 & P2 & P3 & P4). exists P, X. split; auto. split; auto. split; [rewrite P3 by auto; lia|].
  assert (EN : forall g k, g < ng -> P.[g] <= k < P.[S g] -> X.[k] = ch.[g].[k - off g] /\ k - off g < length ch.[g]).
  { intros g k Hg Hk. rewrite !P3, OS in Hk by lia. split; [|lia]. rewrite <- P4 by lia. f_equal. lia. }
  assert (EI : forall g h, g < ng -> (entry P X g h <-> In h ch.[g])).
  { intros g h Hg. split.
    - intros (k & Hk & <-). destruct (EN g k Hg Hk) as (-> & Hl). apply nth_In. auto.
    - intros Hh. apply (In_nth _ _ dflt) in Hh. destruct Hh as (i & Hi & Ei). exists (off g + i). rewrite !P3, OS by lia. split; [lia|].
      rewrite P4 by auto. exact Ei. }
  assert (IB : forall g h, g < ng -> In h ch.[g] -> g <= h < ng).
  { intros g h Hg Hh. apply (GC g Hg) in Hh. destruct Hh as [->|(Hlt & u & v & Hu & (k & Hk & <-) & Eu & Ev)]; [lia|].
    assert (Ai.[k] < n). { apply W5. assert (Ap.[S u] <= Ap.[n]) by (apply (mono_le (aget Ap) n); auto; lia). lia. }
    destruct (V Ai.[k] H). lia. }
  splits.
  - unfold wf_csc. splits; try lia.
    + rewrite P3 by lia. reflexivity.
    + intros i Hi. rewrite !P3 by lia. apply OM; lia.
    + rewrite P3 by lia. lia.
    + intros k Hk. rewrite P3 in Hk by lia.
      assert (HP0 : P.[0] = 0) by (rewrite P3 by lia; reflexivity).
      destruct (range_col P 0 ng k) as (g & Hg & Hkg); try lia; [intros i Hi; rewrite !P3 by lia; apply OM; lia|rewrite (P3 ng) by lia; lia|].
      destruct (EN g k ltac:(lia) Hkg) as (-> & Hl). apply (IB g); [lia|]. apply nth_In. auto.
  - intros g k k' Hg H1 H2 H3. destruct (EN g k Hg ltac:(lia)) as (-> & ?). destruct (EN g k' Hg ltac:(lia)) as (-> & ?).
    apply (GC g Hg); auto. rewrite P3 in H1 by lia. lia.
  - intros g h (Hg & EE & Hne). apply EI in EE; auto. apply IB in EE; auto. lia.
  - intros g h Hg. rewrite EI by auto. rewrite (proj2 (GC g Hg) h). split.
    + intros [->|(Hlt & u & v & Hu & EE & Eu & Ev)]; auto. right. exists u, v. splits; auto. split; [|split]; auto. intros ->. lia.
    + intros [->|(u & v & ED & Eu & Ev)]; auto. destruct (Nat.eq_dec h g) as [->|Hne]; auto. right.
      pose proof (LT u v ED) as Hlt. destruct ED as (Hu & EE & _). assert (Hv : v < n).
      { destruct EE as (k & Hk & <-). apply W5. assert (Ap.[S u] <= Ap.[n]) by (apply (mono_le (aget Ap) n); auto; lia). lia. }
      destruct (V u Hu) as (U1 & U2). destruct (V v Hv) as (V1 & V2). rewrite Eu in U2. rewrite Ev in V2. split.
      * destruct (Nat.lt_trichotomy g h) as [C|[C|C]]; [auto|congruence|]. exfalso.
        assert (gset.[S h] <= gset.[g]) by (apply (mono_le (aget gset) ng); [intros i Hi; pose proof (GI i Hi)|..]; lia). lia.
      * exists u, v. auto.
Qed.
Print Assumptions C127_group_matrix.

Example C127_nonvacuous : wf_csc 6 [0;3;5;6;8;10;11] [0;1;2; 1;4; 2; 3;5; 4;5; 5] /\ lower_tri 6 [0;3;5;6;8;10;11] [0;1;2; 1;4; 2; 3;5; 4;5; 5] /\
  startGrouping 6 2 [0;3;5;6;8;10;11] [0;1;2; 1;4; 2; 3;5; 4;5; 5] = Ok ([0;3;4;6], [0;0;0;1;2;2], 3, [[0;2];[1;2];[2]], 5) /\
  startGrouping 6 1 [0;3;5;6;8;10;11] [0;1;2; 1;4; 2; 3;5; 4;5; 5] = Ok ([0;2;3;4;6], [0;0;1;2;3;3], 4, [[0;1;3];[1];[2;3];[3]], 7).
Proof. splits; [now apply wf_cscb_ok|now apply lower_trib_ok|vm_compute; reflexivity|vm_compute; reflexivity]. Qed.

(** * C128: mergeSmallGroups *)

Section Merge.
Variables (small : nat -> bool) (n ng : nat) (Ap gset inv : list nat).
Hypothesis SM : forall a b, small a = true -> b <= a -> small b = true.
Hypothesis HA : n < length Ap.
Hypothesis MA : forall i, i < n -> Ap.[i] <= Ap.[S i].
Hypothesis IV : intervals n ng gset inv.
Hypothesis H1 : 1 < ng.

Let cost (gs : list nat) (g : nat) : nat := Ap.[gs.[S g]] - Ap.[gs.[g]].

Lemma Ap_mono i j : i <= j -> j <= n -> Ap.[i] <= Ap.[j].
Proof. clear - MA. apply (mono_le (aget Ap) n). auto. Qed.

Lemma gset_le i j : i <= j -> j <= ng -> gset.[i] <= gset.[j].
Proof. clear - IV. destruct IV as (_ & _ & _ & _ & GI & _). apply (mono_le (aget gset) ng). intros k Hk. pose proof (GI k Hk). lia. Qed.

Lemma group_cost_eq gs g : length gs = S ng -> g < ng -> gs.[g] <= n -> gs.[S g] <= n -> getGroupCost ng Ap gs (Z.of_nat g) = Ok (Some (cost gs g)).
Proof.
  clear - HA. intros L Hg A B. unfold getGroupCost. replace ((Z.of_nat ng <=? Z.of_nat g)%Z || (Z.of_nat g <? 0)%Z) with false by lia.
  rewrite Nat2Z.id, !rd_ok by lia. cbn [bind]. rewrite !rd_ok by lia. reflexivity.
Qed.

Lemma group_cost_none gs g : (g < 0 \/ Z.of_nat ng <= g)%Z -> getGroupCost ng Ap gs g = Ok None.
Proof. clear. intros H. unfold getGroupCost. replace ((Z.of_nat ng <=? g)%Z || (g <? 0)%Z) with true by lia. reflexivity. Qed.

Lemma fill_wp (gs : list nat) p c : length gs = S ng -> p <= c -> c < ng ->
  wp (for_ p (S c) (fun gap gs => x <- rd gs (S c) ;; wr gs gap x) gs)
     (fun gs' => length gs' = S ng /\ forall j, gs'.[j] = if (p <=? j) && (j <=? c) then gs.[S c] else gs.[j]).
Proof.
  clear. intros L Hp Hc. apply (wp_for (fun k gs' => length gs' = S ng /\ forall j, gs'.[j] = if (p <=? j) && (j <? k) then gs.[S c] else gs.[j])); [lia| | |].
  - split; auto. intros j. destruct (Nat.leb_spec p j), (Nat.ltb_spec j p); auto; lia.
  - intros k gs' Hk (I1 & I2). apply wp_bind. apply wp_rd; [lia|]. apply wp_wr; [lia|]. rewrite upd_length. split; auto. intros j.
    assert (E : gs'.[S c] = gs.[S c]) by (rewrite I2; destruct (Nat.leb_spec p (S c)), (Nat.ltb_spec (S c) k); auto; lia). rewrite E.
    destruct (Nat.eq_dec j k) as [->|].
    + rewrite aget_upd_eq by lia. destruct (Nat.leb_spec p k), (Nat.ltb_spec k (S k)); auto; lia.
    + rewrite aget_upd_ne by auto. rewrite I2. destruct (Nat.leb_spec p j), (Nat.ltb_spec j k), (Nat.ltb_spec j (S k)); auto; lia.
  - intros gs' (I1 & I2). split; auto.
Qed.

(** [p] is the number after the last large group *)
Definition minv (c : nat) (st : list nat * Z) : Prop :=
  let '(gs, pre) := st in exists p, pre = (Z.of_nat p - 1)%Z /\ p <= c /\ length gs = S ng /\ gs.[0] = 0 /\
    (forall j, c < j -> j <= ng -> gs.[j] = gset.[j]) /\ (forall j, p <= j <= c -> gs.[j] = gs.[c]) /\
    (forall j, j < c -> gs.[j] <= gs.[S j]) /\ gs.[c] <= gset.[c] /\
    (forall j, S j < p -> gs.[j] = gs.[S j] \/ small (cost gs j) = false) /\ (0 < p -> small (cost gs (p - 1)) = false) /\
    (forall j, j <= ng -> exists i, i <= ng /\ gs.[j] = gset.[i]) /\
    (p = 0 -> 0 < c -> small (Ap.[gset.[c]] - Ap.[0]) = true) /\ (c = ng -> 0 < p -> gs.[c] = gset.[c]).

Lemma minv_le c gs pre j : minv c (gs, pre) -> c <= ng -> j <= ng -> gs.[j] <= n.
Proof.
  intros (p & _ & _ & _ & _ & _ & _ & _ & _ & _ & _ & IN & _) Hc Hj. destruct (IN j Hj) as (i & Hi & ->).
  pose proof IV as (_ & _ & _ & Gn & _). rewrite <- Gn. now apply gset_le.
Qed.

Lemma merge_step c gs pre : c < ng -> minv c (gs, pre) ->
  wp (cc <- getGroupCost ng Ap gs (Z.of_nat c) ;; nc <- getGroupCost ng Ap gs (Z.of_nat (S c)) ;; pc <- getGroupCost ng Ap gs pre ;;
      if (match cc with Some x => small x | None => false end) then
        if cost_lt pc nc then gs <- for_ (Z.to_nat (pre + 1)) (S c) (fun gap gs => x <- rd gs (S c) ;; wr gs gap x) gs ;; Ok (gs, pre)
        else x <- rd gs c ;; gs <- wr gs (S c) x ;; Ok (gs, pre)
      else Ok (gs, Z.of_nat c)) (minv (S c)).
Proof.
  intros Hc M. assert (LE : forall j, j <= ng -> gs.[j] <= n) by (intros j Hj; apply (minv_le c gs pre j M); lia).
  destruct M as (p & -> & Hp & L & G0 & UN & EQ & MO & LEc & FU & FP & IN & P0 & PN).
  pose proof IV as (L1 & L2 & Z0 & Gn & GI & V). pose proof (GI c Hc) as GIc.
  assert (US : gs.[S c] = gset.[S c]) by (apply UN; lia).
  rewrite (group_cost_eq gs c) by (auto; apply LE; lia). cbn [bind].
  assert (NC : exists nc, getGroupCost ng Ap gs (Z.of_nat (S c)) = Ok nc /\ (S c = ng -> nc = None)).
  { destruct (Nat.eq_dec (S c) ng) as [E|N]; [exists None; split; auto; apply group_cost_none; lia|].
    eexists. split; [apply group_cost_eq; auto; try (apply LE); lia|lia]. }
  destruct NC as (nc & -> & NCN). cbn [bind].
  assert (PC : exists pc, getGroupCost ng Ap gs (Z.of_nat p - 1) = Ok pc /\ (p = 0 -> pc = None) /\ (0 < p -> pc <> None)).
  { destruct (Nat.eq_dec p 0) as [E|N]; [exists None; splits; auto; [apply group_cost_none|]; lia|].
    exists (Some (cost gs (p - 1))). splits; [|lia|discriminate]. replace (Z.of_nat p - 1)%Z with (Z.of_nat (p - 1)) by lia. apply group_cost_eq; auto; try (apply LE); lia. }
  destruct PC as (pc & -> & PC0 & PC1). cbn [bind]. destruct (small (cost gs c)) eqn:ES.
  - destruct (cost_lt pc nc) eqn:EL.
    + (* merge into the previous group *)
      assert (Pp : 0 < p) by (destruct (Nat.eq_dec p 0) as [E|]; [rewrite PC0 in EL by auto; discriminate|lia]).
      apply wp_bind. replace (Z.to_nat (Z.of_nat p - 1 + 1)) with p by lia. eapply wp_mono; [apply (fill_wp gs p c); auto|].
      intros gs' (L' & F). apply wp_ret.
      assert (FO : forall j, j < p -> gs'.[j] = gs.[j]) by (intros j Hj; rewrite F; destruct (Nat.leb_spec p j), (Nat.leb_spec j c); auto; lia).
      assert (FI : forall j, p <= j -> j <= S c -> gs'.[j] = gset.[S c]).
      { intros j Hj Hj'. rewrite F. destruct (Nat.leb_spec p j), (Nat.leb_spec j c); auto; try lia. replace j with (S c) by lia. auto. }
      assert (FB : forall j, S c < j -> gs'.[j] = gs.[j]) by (intros j Hj; rewrite F; destruct (Nat.leb_spec p j), (Nat.leb_spec j c); auto; lia).
      exists p. splits; auto; try lia.
      * rewrite FO by lia. auto.
      * intros j A B. rewrite FB by lia. apply UN; lia.
      * intros j Hj. now rewrite !FI by lia.
      * intros j Hj. destruct (Nat.lt_ge_cases (S j) p) as [C|C]; [rewrite !FO by lia; apply MO; lia|].
        destruct (Nat.lt_ge_cases j p) as [D|D]; [|rewrite !FI by lia; lia]. rewrite FO, FI by lia.
        assert (gs.[j] <= gs.[c]) by (assert (MM : forall a b, a <= b -> b <= c -> gs.[a] <= gs.[b]) by (apply (mono_le (aget gs) c); auto); apply MM; lia).
        lia.
      * rewrite FI by lia. lia.
      * intros j Hj. unfold cost. rewrite !FO by lia. apply FU; auto.
      * intros _. destruct (small (cost gs' (p - 1))) eqn:C; auto. rewrite <- (FP Pp). symmetry. apply (SM _ _ C). unfold cost.
        replace (S (p - 1)) with p by lia. rewrite (FO (p - 1)), (FI p), (EQ p) by lia. assert (Ap.[gs.[c]] <= Ap.[gset.[S c]]); [|lia].
        apply Ap_mono; [lia|]. rewrite <- US. apply LE. lia.
      * intros j Hj. destruct (Nat.lt_ge_cases j p) as [C|C]; [rewrite FO by auto; apply IN; auto|].
        destruct (Nat.le_gt_cases j (S c)) as [D|D]; [rewrite FI by auto; exists (S c); split; [lia|auto]|rewrite FB by auto; apply IN; auto].
    + (* merge into the next *)
      apply wp_bind. apply wp_rd; [lia|]. apply wp_bind. apply wp_wr; [lia|]. apply wp_ret.
      assert (FO : forall j, j <> S c -> (upd gs (S c) gs.[c]).[j] = gs.[j]) by (intros j Hj; now rewrite aget_upd_ne by auto).
      assert (FN : (upd gs (S c) gs.[c]).[S c] = gs.[c]) by (now rewrite aget_upd_eq by lia).
      exists p. rewrite upd_length. splits; auto; try lia.
      * rewrite FO by lia. auto.
      * intros j A B. rewrite FO by lia. apply UN; lia.
      * intros j Hj. rewrite FN. destruct (Nat.eq_dec j (S c)) as [->|]; [now rewrite FN|]. rewrite FO by auto. apply EQ. lia.
      * intros j Hj. destruct (Nat.eq_dec j c) as [->|]; [rewrite FN, FO by lia; lia|]. rewrite !FO by lia. apply MO. lia.
      * intros j Hj. unfold cost. rewrite !FO by lia. apply FU; auto.
      * intros Pp. unfold cost. rewrite !FO by lia. apply FP; auto.
      * intros j Hj. destruct (Nat.eq_dec j (S c)) as [->|]; [rewrite FN; apply IN; lia|rewrite FO by auto; apply IN; auto].
      * intros -> _. rewrite <- ES. f_equal. unfold cost. rewrite US. f_equal. rewrite <- (EQ 0) by lia. now rewrite G0.
      * intros E Pp. exfalso. rewrite NCN in EL by auto. specialize (PC1 Pp). destruct pc; [discriminate|congruence].
  - (* large *)
    apply wp_ret. exists (S c). splits; auto; try lia.
    + intros j A B. apply UN; lia.
    + intros j Hj. now replace j with (S c) by lia.
    + intros j Hj. destruct (Nat.eq_dec j c) as [->|]; [lia|]. apply MO. lia.
    + intros j Hj. destruct (Nat.lt_ge_cases (S j) p) as [C|C]; [apply FU; auto|]. destruct (Nat.eq_dec (S j) p) as [D|D].
      * right. replace j with (p - 1) by lia. apply FP. lia.
      * left. rewrite (EQ j), (EQ (S j)) by lia. auto.
    + intros _. replace (S c - 1) with c by lia. auto.
Qed.

(** the boundaries without repetitions *)
Definition squeezed (k : nat) (gs r : list nat) : Prop :=
  r <> [] /\ r.[0] = gs.[0] /\ r.[length r - 1] = gs.[k] /\ (forall t, t < length r -> exists i, i <= k /\ r.[t] = gs.[i]) /\
  forall t, S t < length r -> exists i, i < k /\ gs.[i] < gs.[S i] /\ r.[t] = gs.[i] /\ r.[S t] = gs.[S i].

Lemma squeeze_wp (gs : list nat) : length gs = S ng -> (forall j, j < ng -> gs.[j] <= gs.[S j]) ->
  wp (for_ 0 ng (fun i out => a <- rd gs i ;; b <- rd gs (S i) ;; Ok (if a <? b then out ++ [a] else out)) [])
     (fun out => squeezed ng gs (out ++ [gs.[ng]])).
Proof.
  clear. intros L MO. apply (wp_for (fun k out => squeezed k gs (out ++ [gs.[k]]))); [lia| | |auto].
  - unfold squeezed. cbn. splits; auto; try discriminate; [|intros; lia]. intros t Ht. exists 0. split; auto. now replace t with 0 by lia.
  - intros k out Hk (S0 & S1 & S2 & S3 & S4). apply wp_bind. apply wp_rd; [lia|]. apply wp_bind. apply wp_rd; [lia|]. apply wp_ret.
    pose proof (MO k ltac:(lia)) as M. destruct (Nat.ltb_spec gs.[k] gs.[S k]) as [C|C].
    + set (r := out ++ [gs.[k]]) in *. assert (LR : 0 < length r) by (unfold r; rewrite app_length; simpl; lia).
      unfold squeezed. rewrite app_length. cbn [length]. splits.
      * intros E. apply (f_equal (@length nat)) in E. rewrite app_length in E. simpl in E. lia.
      * rewrite app1_old by lia. auto.
      * rewrite app1_new by lia. auto.
      * intros t Ht. destruct (Nat.eq_dec t (length r)) as [->|]; [rewrite app1_new by auto; exists (S k); split; auto|].
        rewrite app1_old by lia. destruct (S3 t ltac:(lia)) as (i & Hi & Ei). exists i. split; [lia|auto].
      * intros t Ht. destruct (Nat.eq_dec (S t) (length r)) as [E|].
        -- exists k. rewrite app1_old, app1_new by lia. splits; auto. rewrite <- S2. f_equal. lia.
        -- rewrite !app1_old by lia. destruct (S4 t ltac:(lia)) as (i & Hi & Ei). exists i. split; [lia|auto].
    + assert (E : gs.[S k] = gs.[k]) by lia. rewrite E. unfold squeezed. rewrite E. splits; auto.
      * intros t Ht. destruct (S3 t Ht) as (i & Hi & Ei). exists i. split; [lia|auto].
      * intros t Ht. destruct (S4 t Ht) as (i & Hi & Ei). exists i. split; [lia|auto].
Qed.

Lemma regroup_wp (r : list nat) m' (iv : list nat) : length r = S m' -> r.[0] = 0 -> (forall g, g < m' -> r.[g] < r.[S g]) -> r.[m'] <= n -> length iv = n ->
  wp (for_ 0 m' (fun g iv => a <- rd r g ;; b <- rd r (S g) ;; for_ a b (fun v iv => wr iv v g) iv) iv)
     (fun iv' => length iv' = n /\ forall v, v < r.[m'] -> iv'.[v] < m' /\ r.[iv'.[v]] <= v < r.[S iv'.[v]]).
Proof.
  clear. intros L R0 RI RN LI.
  assert (MO : forall i j, i <= j -> j <= m' -> r.[i] <= r.[j]) by (apply (mono_le (aget r) m'); intros k Hk; pose proof (RI k Hk); lia).
  apply (wp_for (fun k iv' => length iv' = n /\ forall v, v < r.[k] -> iv'.[v] < k /\ r.[iv'.[v]] <= v < r.[S iv'.[v]])); [lia| | |auto].
  - split; auto. intros v. rewrite R0. lia.
  - intros g iv1 Hg (I1 & I2). apply wp_bind. apply wp_rd; [lia|]. apply wp_bind. apply wp_rd; [lia|]. pose proof (RI g ltac:(lia)). pose proof (MO (S g) m' ltac:(lia) ltac:(lia)).
    apply (wp_for (fun k iv2 => length iv2 = n /\ (forall v, v < r.[g] -> iv2.[v] = iv1.[v]) /\ forall v, r.[g] <= v < k -> iv2.[v] = g)); [lia| | |].
    + splits; auto. intros; lia.
    + intros k iv2 Hk (J1 & J2 & J3). apply wp_wr; [lia|]. rewrite upd_length. splits; auto.
      * intros v Hv. rewrite aget_upd_ne by lia. auto.
      * intros v Hv. destruct (Nat.eq_dec v k) as [->|]; [now rewrite aget_upd_eq by lia|]. rewrite aget_upd_ne by auto. apply J3. lia.
    + intros iv2 (J1 & J2 & J3). split; auto. intros v Hv. destruct (Nat.lt_ge_cases v r.[g]) as [C|C].
      * rewrite J2 by auto. destruct (I2 v C). split; auto.
      * rewrite J3 by lia. lia.
Qed.

Lemma merge_wp : wp (mergeSmallGroups small ng Ap gset inv) (fun '(r, iv, m') =>
  if small (Ap.[n] - Ap.[0]) then r = [0] /\ iv = inv /\ m' = 0
  else intervals n m' r iv /\ (forall i, i <= m' -> exists j, j <= ng /\ r.[i] = gset.[j]) /\ forall g, g < m' -> small (Ap.[r.[S g]] - Ap.[r.[g]]) = false).
Proof.
  pose proof IV as (L1 & L2 & Z0 & Gn & GI & V). unfold mergeSmallGroups. replace (ng =? 1) with false by lia. apply wp_bind.
  apply (wp_for minv); [lia| | |].
  - exists 0. splits; auto; try lia; try (intros; lia).
    + intros j Hj. now replace j with 0 by lia.
    + intros j Hj. exists j. auto.
  - intros c [gs pre] Hc M. apply merge_step; auto. lia.
  - intros [gs pre] M. pose proof (fun j => minv_le ng gs pre j M (le_n _)) as LE. destruct M as (p & -> & Hp & L & G0 & UN & EQ & MO & LEc & FU & FP & IN & P0 & PN).
    apply wp_bind. eapply wp_mono; [apply squeeze_wp; auto|]. intros out (S0 & S1 & S2 & S3 & S4).
    destruct gs as [|g0 gs'] eqn:Eg; [simpl in L; lia|]. rewrite <- Eg in *. clear Eg g0 gs'. apply wp_bind. apply wp_rd; [lia|]. rewrite L. replace (S ng - 1) with ng by lia.
    cbv zeta. set (r := out ++ [gs.[ng]]) in *. assert (LR : 0 < length r) by (unfold r; rewrite app_length; simpl; lia).
    assert (RS : forall g, g < length r - 1 -> r.[g] < r.[S g]) by (intros g Hg; destruct (S4 g ltac:(lia)) as (i & Hi & A & -> & ->); auto).
    destruct (Nat.eq_dec p 0) as [->|Np].
    + (* every node is lost *)
      assert (SP : small (Ap.[n] - Ap.[0]) = true) by (rewrite <- Gn; apply P0; lia). rewrite SP.
      assert (AZ : forall j, j <= ng -> gs.[j] = 0) by (intros j Hj; rewrite (EQ j) by lia; rewrite <- (EQ 0) by lia; auto).
      assert (LR1 : length r = 1). { destruct (Nat.eq_dec (length r) 1); auto. destruct (S4 0 ltac:(lia)) as (i & Hi & A & _). rewrite !AZ in A by lia. lia. }
      destruct r as [|r0 [|r1 r']]; try (simpl in LR1; lia). cbn in S1. rewrite AZ in S1 by lia. subst r0. cbn. auto.
    + apply wp_bind. eapply wp_mono; [apply (regroup_wp r (length r - 1) inv); auto; try lia; rewrite S2; apply LE; auto|].
      intros iv (I1 & I2). apply wp_ret.
      assert (SP : small (Ap.[n] - Ap.[0]) = false).
      { destruct (small (Ap.[n] - Ap.[0])) eqn:C; auto. rewrite <- (FP ltac:(lia)). symmetry. apply (SM _ _ C). unfold cost. replace (S (p - 1)) with p by lia.
        pose proof (Ap_mono gs.[p] n (LE p ltac:(lia)) (le_n _)). pose proof (Ap_mono 0 gs.[p - 1] ltac:(lia) (LE (p - 1) ltac:(lia))). lia. }
      rewrite SP. splits.
      * unfold intervals. assert (RN : r.[length r - 1] = n) by (rewrite S2, PN by lia; auto). rewrite RN in *. splits; auto; [lia|]. rewrite S1. auto.
      * intros i Hi. destruct (S3 i ltac:(lia)) as (j & Hj & ->). apply IN; auto.
      * intros g Hg. destruct (S4 g ltac:(lia)) as (i & Hi & A & -> & ->). fold (cost gs i).
        destruct (Nat.lt_ge_cases (S i) p) as [C|C]; [destruct (FU i C); [lia|auto]|]. destruct (Nat.eq_dec (S i) p) as [D|D].
        -- replace i with (p - 1) by lia. apply FP. lia.
        -- rewrite (EQ i), (EQ (S i)) in A by lia. lia.
Qed.
End Merge.

(** C128.  If the whole matrix reaches the threshold, mergeSmallGroups leaves unions of consecutive groups which all reach
    it and cover every node.  [small c]: c < minimum_group_cost_threshold; the cost of a group is the number of its entries. *)
Theorem C128_merged : forall small n ng Ap gset inv, (forall a b, small a = true -> b <= a -> small b = true) ->
  n < length Ap -> (forall i, i < n -> Ap.[i] <= Ap.[S i]) -> intervals n ng gset inv -> 1 < ng -> small (Ap.[n] - Ap.[0]) = false ->
  exists gset' inv' ng', mergeSmallGroups small ng Ap gset inv = Ok (gset', inv', ng') /\ intervals n ng' gset' inv' /\
    (forall i, i <= ng' -> exists j, j <= ng /\ gset'.[i] = gset.[j]) /\
    forall g, g < ng' -> small (Ap.[gset'.[S g]] - Ap.[gset'.[g]]) = false.
Proof.
  intros small n ng Ap gset inv SM HA MA IV H1 HS. pose proof (merge_wp small n ng Ap gset inv SM HA MA IV H1) as G.
  apply wp_ok in G. destruct G as ([[r iv] m'] & E & G). rewrite HS in G. exists r, iv, m'. tauto.
Qed.
Print Assumptions C128_merged.

(** Otherwise all groups disappear: no node is in a group any more (unless there was one group only, which is kept). *)
Theorem C128_all_lost : forall small n ng Ap gset inv, (forall a b, small a = true -> b <= a -> small b = true) ->
  n < length Ap -> (forall i, i < n -> Ap.[i] <= Ap.[S i]) -> intervals n ng gset inv -> 1 < ng -> small (Ap.[n] - Ap.[0]) = true ->
  mergeSmallGroups small ng Ap gset inv = Ok ([0], inv, 0).
Proof.
  intros small n ng Ap gset inv SM HA MA IV H1 HS. pose proof (merge_wp small n ng Ap gset inv SM HA MA IV H1) as G.
  apply wp_ok in G. destruct G as ([[r iv] m'] & E & G). rewrite HS in G. destruct G as (-> & -> & ->). auto.
Qed.
Print Assumptions C128_all_lost.

Theorem C128_one_group : forall small Ap gset inv, mergeSmallGroups small 1 Ap gset inv = Ok (gset, inv, 1).
Proof. reflexivity. Qed.

Example C128_nonvacuous : let Ap := [0;3;5;6;8;10;11] in
  intervals 6 4 [0;2;3;4;6] [0;0;1;2;3;3] /\ 
  mergeSmallGroups (fun c => c <? 3) 4 Ap [0;2;3;4;6] [0;0;1;2;3;3] = Ok ([0;2;4;6], [0;0;1;1;2;2], 3) /\
  mergeSmallGroups (fun c => c <? 12) 4 Ap [0;2;3;4;6] [0;0;1;2;3;3] = Ok ([0], [0;0;1;2;3;3], 0).
Proof.
  split; [|vm_compute; auto]. unfold intervals. splits; auto.
  - intros g Hg. do 4 (destruct g as [|g]; [cbn; lia|]). lia.
  - intros v Hv. do 6 (destruct v as [|v]; [cbn; lia|]). lia.
Qed.
