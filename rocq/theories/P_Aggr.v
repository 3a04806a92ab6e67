(** C111: aggressiveSupernodeGrouping (src/hdagg/hdagg.cpp 1138-1231). *)
From Verif Require Import Base Lib Lib2 Spec Check CheckS SpecSolve L_SpTRSV2 L_Ungroup M_Conv.
From Coq Require Import ZifyBool ZifyNat Permutation.

(** column [m] equals the end of column [c], from the position m - c of that column on *)
Definition column_tail (Lp Li : list nat) (c m : nat) : Prop :=
  slice Li Lp.[m] Lp.[S m] = slice Li (Lp.[c] + (m - c)) Lp.[S c].

(** node [x] is executed in part [p] of level [l] of a schedule of groups *)
Definition node_place (gp gs : list nat) (no : nat) (lp pp np : list nat) (x l p : nat) : Prop :=
  l < no /\ exists k g, sched_at lp pp np l p k g /\ in_level gp gs g x.

Section Aggr.
Variables (n : nat) (Lp Li : list nat) (asg : list (nat * nat)).
Hypothesis W : wf_csc n Lp Li.
Hypothesis NE : forall u, u < n -> Lp.[u] < Lp.[S u].
Hypothesis LA : length asg = n.

Lemma same_tail_wp c m (Q : bool -> Prop) : c < m -> m < n ->
  Lp.[S c] - Lp.[c] = (m - c) + (Lp.[S m] - Lp.[m]) ->
  (forall b, (b = true -> column_tail Lp Li c m) -> Q b) ->
  wp (same_tail Lp Li c m (Z.of_nat m - Z.of_nat c) (Lp.[S m] - Lp.[m])) Q.
Proof.
  intros Hcm Hm HS HQ. pose proof W as (W1 & W2 & W3 & W4 & W5). unfold same_tail.
  pose proof (W3 m Hm). pose proof (W3 c ltac:(lia)).
  apply (wp_forb (fun r b => b = true /\ forall q, q < r -> Li.[Lp.[c] + (m - c) + q] = Li.[Lp.[m] + q])); [lia| | |].
  - split; auto. intros; lia.
  - intros r b Hr (-> & IH). pose proof (wf_col_lt n Lp Li W m (Lp.[m] + r) Hm ltac:(lia)) as [X1 _].
    pose proof (wf_col_lt n Lp Li W c (Lp.[c] + (m - c) + r) ltac:(lia) ltac:(lia)) as [X2 _].
    wp1. wp1; [lia|]. unfold rdZ. destruct (Z.ltb_spec (Z.of_nat Lp.[c] + Z.of_nat r + (Z.of_nat m - Z.of_nat c)) 0); [lia|].
    replace (Z.to_nat (Z.of_nat Lp.[c] + Z.of_nat r + (Z.of_nat m - Z.of_nat c))) with (Lp.[c] + (m - c) + r) by lia.
    wp1. wp1; [lia|]. wp1. wp1; [lia|]. wp1. wp1; [lia|]. destruct (Nat.eqb_spec Li.[Lp.[c] + (m - c) + r] Li.[Lp.[m] + r]) as [E|E]; wp1; cbn [fst snd].
    + split; auto. intros q Hq. destruct (Nat.eq_dec q r) as [->|]; auto. apply IH. lia.
    + apply HQ. discriminate.
  - intros b (-> & IH). apply HQ. intros _. unfold column_tail.
    pose proof (wf_Lp_mono n Lp Li W (S m) n ltac:(lia) ltac:(lia)). pose proof (wf_Lp_mono n Lp Li W (S c) n ltac:(lia) ltac:(lia)).
    apply slice_ext; [lia|lia|lia|]. intros i Hi. symmetry. apply IH. lia.
Qed.

(** a supernode: its first node and the nodes joined to it *)
Definition good (s : list nat) : Prop :=
  exists c ms, s = c :: ms /\ forall m, In m ms -> c < m /\ asg.[m] = asg.[c] /\ column_tail Lp Li c m.

Definition gstate (grouped : list bool) (l : list nat) : Prop :=
  length grouped = n /\ NoDup l /\ forall x, In x l <-> x < n /\ grouped.[x] = true.

Lemma aggr_candidate_wp col it grouped done cur (Q : bool * (list bool * list nat) -> Prop) :
  col < n -> it < n -> (forall x, x <= col -> grouped.[x] = true) -> gstate grouped (done ++ cur) -> good cur ->
  hd 0 cur = col ->
  (forall b grouped' cur', (forall x, x <= col -> grouped'.[x] = true) -> gstate grouped' (done ++ cur') -> good cur' -> hd 0 cur' = col ->
     Q (b, (grouped', cur'))) ->
  wp (aggr_candidate Lp Li asg col it (grouped, cur)) Q.
Proof.
  intros Hc Hi HP (GL & GN & GI) HG HH HQ. pose proof W as (W1 & W2 & W3 & W4 & W5). unfold aggr_candidate.
  assert (HS : gstate grouped (done ++ cur)) by (split; auto).
  wp1. wp1; [lia|]. wp1. wp1; [lia|]. destruct (_ && _) eqn:EA; cbn [negb]; [|wp1; auto].
  wp1. wp1; [lia|]. destruct grouped.[it] eqn:EG; [wp1; auto|].
  assert (Hlt : col < it). { destruct (le_lt_dec it col) as [H|]; auto. rewrite (HP it H) in EG. discriminate. }
  cbv zeta. wp1. wp1; [lia|]. wp1. wp1; [lia|]. wp1. wp1; [lia|]. wp1. wp1; [lia|].
  destruct (Z.eqb_spec (Z.of_nat Lp.[S col] - Z.of_nat Lp.[col] - (Z.of_nat it - Z.of_nat col)) (Z.of_nat Lp.[S it] - Z.of_nat Lp.[it])) as [EO|];
    cbn [negb]; [|wp1; auto].
  pose proof (W3 it Hi). pose proof (W3 col Hc). pose proof (NE it Hi).
  replace (Z.to_nat (Z.of_nat Lp.[S col] - Z.of_nat Lp.[col] - (Z.of_nat it - Z.of_nat col))) with (Lp.[S it] - Lp.[it]) by lia.
  wp1. apply same_tail_wp; auto; [lia|]. intros b HB. destruct b; [|wp1; auto]. wp1. wp1; [lia|]. wp1. apply HQ.
  - intros x Hx. rewrite aget_upd_ne by lia. auto.
  - rewrite app_assoc. split; [now rewrite upd_length|]. split.
    + apply (Permutation_NoDup (Permutation_app_comm [it] (done ++ cur))). cbn [app]. constructor; auto.
      intros Hin. apply GI in Hin. destruct Hin as [_ Hin]. congruence.
    + intros x. rewrite in_app_iff, GI, aget_upd by lia. cbn [In]. destruct (Nat.eqb_spec x it) as [->|]; split; intuition.
  - destruct HG as (c & ms & -> & HM). cbn [hd] in HH. subst c. exists col, (ms ++ [it]). split; auto.
    intros m Hm. apply in_app_or in Hm. destruct Hm as [Hm|[<-|[]]]; auto. splits; auto.
    destruct asg.[col], asg.[it]. cbn [fst snd] in EA. f_equal; lia.
  - destruct cur; auto. destruct HG as (c & ms & E & _). discriminate.
Qed.

Lemma aggr_next_wp grouped col (Q : nat -> Prop) : length grouped = n -> col < n -> (forall x, x <= col -> grouped.[x] = true) ->
  (forall col', col < col' <= n -> (forall x, x < col' -> grouped.[x] = true) -> (col' < n -> grouped.[col'] = false) -> Q col') ->
  wp (aggr_next n grouped col) Q.
Proof.
  intros HL Hc HP HQ. unfold aggr_next.
  apply (wp_while (fun c => col <= c <= n /\ (forall x, x < c -> grouped.[x] = true)) (fun c => n - c)).
  - split; [lia|]. intros x Hx. apply HP. lia.
  - lia.
  - intros c (C1 & C2). destruct (Nat.eqb_spec c n) as [->|Hcn].
    + wp1. apply HQ; auto; lia.
    + wp1; [lia|]. destruct grouped.[c] eqn:E.
      * wp1. split; [|lia]. split; [lia|]. intros x Hx. destruct (Nat.eq_dec x c) as [->|]; auto. apply C2. lia.
      * apply HQ; auto. destruct (Nat.eq_dec c col) as [->|]; [|lia]. rewrite HP in E by lia. discriminate.
Qed.

Definition ainv (st : nat * list bool * list (list nat)) : Prop :=
  let '(col, grouped, sups) := st in col <= n /\
     (forall x, x < col -> grouped.[x] = true) /\ (col < n -> grouped.[col] = false) /\
     gstate grouped (concat sups) /\ (forall s, In s sups -> good s).

Definition apost (col : nat) (sups : list (list nat)) (st : list bool * list nat) : Prop :=
  let '(g, cur) := st in (forall x, x <= col -> g.[x] = true) /\ gstate g (concat sups ++ cur) /\ good cur /\ hd 0 cur = col.

Lemma aggr_finish_wp col sups g cur : col < n -> (forall s, In s sups -> good s) -> apost col sups (g, cur) ->
  wp (c <- aggr_next n g col ;; Ok (c, g, sups ++ [cur])) (fun s' => ainv s' /\ n - fst (fst s') < n - col).
Proof.
  intros Hc HS (P1 & P2 & P3 & P4). wp1. apply aggr_next_wp; auto; [apply P2|]. intros c' C1 C2 C3. wp1. split; [|cbn [fst]; lia].
  unfold ainv. splits; auto; try lia.
  - rewrite concat_app. cbn [concat]. now rewrite app_nil_r.
  - intros s Hin. apply in_app_or in Hin. destruct Hin as [|[<-|[]]]; auto.
Qed.

Lemma aggr_supernodes_wp (Q : list (list nat) -> Prop) :
  (forall sups, Permutation (concat sups) (seq 0 n) -> (forall s, In s sups -> good s) -> Q sups) ->
  wp (aggr_supernodes n Lp Li asg) Q.
Proof.
  intros HQ. pose proof W as (W1 & W2 & W3 & W4 & W5). unfold aggr_supernodes. wp1.
  apply (wp_while ainv (fun st => n - fst (fst st))).
  - split; [lia|]. split; [intros; lia|]. split; [intros; now rewrite aget_repeat|]. split; [|intros s []].
    split; [apply repeat_length|]. split; [constructor|]. intros x. split; [intros []|]. intros [Hx E]. rewrite aget_repeat in E by auto. discriminate.
  - cbn [fst]. lia.
  - intros [[col grouped] sups] (I1 & I2 & I3 & (GL & GN & GI) & I5). wp1. destruct (Nat.ltb_spec col n) as [Hc|Hc].
    + unfold aggr_one. wp1. wp1; [lia|]. wp1. wp1; [lia|]. pose proof (NE col Hc).
      pose proof (wf_Lp_mono n Lp Li W (S col) n ltac:(lia) ltac:(lia)).
      destruct (_ && _) eqn:EB; [|lia]. cbn [negb]. wp1. wp1; [lia|]. wp1.
      apply (wp_forb (fun _ => apost col sups)); [lia| | |].
      * unfold apost. splits.
        -- intros x Hx. rewrite aget_upd by lia. destruct (Nat.eqb_spec x col); auto. apply I2. lia.
        -- split; [now rewrite upd_length|]. split.
           ++ apply (Permutation_NoDup (Permutation_app_comm [col] (concat sups))). cbn [app]. constructor; auto.
              intros Hin. apply GI in Hin. destruct Hin as [_ Hin]. rewrite I3 in Hin by auto. discriminate.
           ++ intros x. rewrite in_app_iff, GI, aget_upd by lia. cbn [In]. destruct (Nat.eqb_spec x col) as [->|]; split; intuition.
        -- exists col, []. split; auto. intros m [].
        -- reflexivity.
      * intros k [g cur] Hk (P1 & P2 & P3 & P4). pose proof (wf_col_lt n Lp Li W col k Hc ltac:(lia)) as [X1 X2].
        pose proof (W5 k X2). wp1. wp1; [lia|]. eapply aggr_candidate_wp; eauto. intros b g' cur' Q1 Q2 Q3 Q4. cbn [fst snd].
        destruct b; [|unfold apost; auto]. apply aggr_finish_wp; auto. unfold apost. auto.
      * intros [g cur] HP. apply aggr_finish_wp; auto.
    + wp1. apply HQ; auto. apply NoDup_Permutation; auto using seq_NoDup. intros x. rewrite GI, in_seq. split; [lia|].
      intros Hx. split; [lia|]. apply I2. lia.
Qed.
End Aggr.

(** * The part and the level of every node *)
Section Assign.
Variables (n ng : nat) (gp gs : list nat) (no : nat) (lp pp np : list nat).
Hypothesis GP : group_partition n ng gp gs.
Hypothesis LG : ng < length gp.
Hypothesis LS : n <= length gs.
Hypothesis SW : sched_wf ng no lp pp np.
Hypothesis SC : sched_complete ng np.

Lemma place_pos_unique l l' p p' k x x' : l < no -> l' < no -> sched_at lp pp np l p k x -> sched_at lp pp np l' p' k x' ->
  l = l' /\ p = p'.
Proof.
  intros Hl Hl' H1 H2. assert (x = x') as <- by (destruct H1 as (_ & _ & <-), H2 as (_ & _ & <-); reflexivity).
  eapply (L_Ungroup.sched_pos_unique ng ng (fun _ _ => False)); eauto. intros ? ? [].
Qed.

Lemma place_group_unique g h q r : g < ng -> h < ng -> gp.[g] <= q < gp.[S g] -> gp.[h] <= r < gp.[S h] -> gs.[q] = gs.[r] -> g = h.
Proof.
  intros Hg Hh Hq Hr E. pose proof GP as (G1 & G2 & G3 & G4 & G5).
  destruct (group_le n ng gp gs g GP Hg), (group_le n ng gp gs h GP Hh).
  assert (q = r) as -> by (apply G5; auto; lia).
  apply (bucket_unique (aget gp) ng g h r); auto.
Qed.

(** the nodes of the groups at the positions before [k] have their part and level *)
Definition placed (k : nat) (asg : list (nat * nat)) : Prop :=
  length asg = n /\ forall k' l p x, k' < k -> l < no -> sched_at lp pp np l p k' np.[k'] -> in_level gp gs np.[k'] x ->
    asg.[x] = (p - lp.[l], l).

Lemma assign_nodes_wp (Q : list (nat * nat) -> Prop) :
  (forall asg, length asg = n -> (forall x l p, node_place gp gs no lp pp np x l p -> asg.[x] = (p - lp.[l], l)) -> Q asg) ->
  wp (assign_nodes n gp gs no lp pp np) Q.
Proof.
  intros HQ. pose proof SW as (S1 & S2 & S3 & S4 & S5 & S6 & S7 & S8). pose proof SC as (C1 & C2).
  pose proof GP as (G1 & G2 & G3 & G4 & G5). unfold assign_nodes.
  assert (HP : forall p, p <= lp.[no] -> pp.[p] <= ng).
  { intros p Hp. rewrite <- S7. apply (mono_le (aget pp) lp.[no]); auto. }
  apply (wp_for (fun l => placed pp.[lp.[l]])); [lia| | |].
  - split; [apply repeat_length|]. rewrite S2, S5. intros; lia.
  - intros l asg Hl HPl. pose proof (S3 l ltac:(lia)).
    assert (lp.[S l] <= lp.[no]) by (apply (mono_le (aget lp) no); auto; lia).
    wp1. wp1; [lia|]. wp1. wp1; [lia|]. wp1.
    apply (wp_for (fun p '(asg, core) => placed pp.[p] asg /\ core = p - lp.[l])); [lia| | |].
    + split; auto. lia.
    + intros p [asg1 core] Hp [HPp ->]. pose proof (S6 p ltac:(lia)). pose proof (HP (S p) ltac:(lia)).
      wp1. wp1; [lia|]. wp1. wp1; [lia|]. wp1.
      apply (wp_for (fun k => placed k)); [lia|exact HPp| |].
      * intros k asg2 Hk HPk. pose proof (C1 k ltac:(lia)) as Hg. destruct (group_le n ng gp gs _ GP Hg) as [L1 L2].
        assert (HAt : sched_at lp pp np l p k np.[k]) by (unfold sched_at; splits; lia).
        wp1. wp1; [lia|]. wp1. wp1; [lia|]. wp1. wp1; [lia|].
        apply (wp_for (fun q asg => placed k asg /\ forall r, gp.[np.[k]] <= r < q -> asg.[gs.[r]] = (p - lp.[l], l))); [lia| | |].
        -- split; auto. intros; lia.
        -- intros q asg3 Hq [(PL & PK) HR]. pose proof (G4 q ltac:(lia)). wp1. wp1; [lia|]. wp1; [lia|]. split; [split|].
           ++ now rewrite upd_length.
           ++ intros k' l' p' x Hk' Hl' Hs (r & Hr & <-). rewrite aget_upd by lia.
              destruct (Nat.eqb_spec gs.[r] gs.[q]) as [E|]; [|apply (PK k'); auto; exists r; auto].
              pose proof (place_group_unique np.[k'] np.[k] r q (C1 k' ltac:(lia)) Hg Hr Hq E) as EG.
              apply C2 in EG; lia.
           ++ intros r Hr. rewrite aget_upd by lia. destruct (Nat.eqb_spec gs.[r] gs.[q]); auto. apply HR.
              destruct (Nat.eq_dec r q) as [->|]; [congruence|lia].
        -- intros asg3 [(PL & PK) HR]. split; auto. intros k' l' p' x Hk' Hl' Hs Hx.
           destruct (Nat.eq_dec k' k) as [->|]; [|apply (PK k'); auto; lia].
           destruct (place_pos_unique l' l p' p k np.[k] np.[k] Hl' ltac:(lia) Hs HAt) as (-> & ->).
           destruct Hx as (r & Hr & <-). apply HR. lia.
      * intros asg2 HPk. wp1. split; auto. lia.
    + intros [asg1 core] [HPp _]. wp1. exact HPp.
  - intros asg (PL & PK). apply HQ; auto. intros x l p (Hl & k & g & (A1 & A2 & <-) & Hx).
    apply (PK k); auto; [|unfold sched_at; splits; lia].
    assert (lp.[S l] <= lp.[no]) by (apply (mono_le (aget lp) no); auto; lia).
    assert (pp.[S p] <= pp.[lp.[no]]) by (apply (mono_le (aget pp) lp.[no]); auto; lia). lia.
Qed.

Lemma place_exists x : x < n -> exists l p, node_place gp gs no lp pp np x l p.
Proof.
  intros Hx. pose proof SW as (S1 & S2 & S3 & S4 & S5 & S6 & S7 & S8). pose proof SC as (C1 & C2).
  pose proof GP as (G1 & G2 & G3 & G4 & G5).
  destruct (inj_onto n (aget gs) G4 G5 x Hx) as (q & Hq & Eq).
  destruct (bucket_exists (aget gp) ng q ltac:(lia) ltac:(lia)) as (g & Hg & Hgq).
  destruct (inj_onto ng (aget np) C1 C2 g Hg) as (k & Hk & Ek).
  destruct (bucket_exists (aget pp) lp.[no] k ltac:(lia) ltac:(lia)) as (p & Hp & Hpk).
  destruct (bucket_exists (aget lp) no p ltac:(lia) ltac:(lia)) as (l & Hl & Hlp).
  exists l, p. split; auto. exists k, g. split; [unfold sched_at; auto|]. exists q. auto.
Qed.
End Assign.

Lemma sum_lengths (sups : list (list nat)) a : fold_left (fun a s => a + length s) sups a = a + length (concat sups).
Proof. revert a. induction sups as [|s sups IH]; intros a; cbn [fold_left concat length]; [lia|]. rewrite IH, app_length. lia. Qed.

(** On a matrix with non-empty columns and a schedule of a partition into groups, the
    value returned is (number of nodes) / (number of blocks) of a partition of the
    nodes into blocks.  Every node of a block is executed in the same part of the same
    level as the first node of the block, comes after it, and its column is the end
    of the column of that first node. *)
Theorem C111_supernode_average :
  forall n Lp Li ng gp gs no lp pp np, wf_csc n Lp Li -> (forall u, u < n -> Lp.[u] < Lp.[S u]) ->
  group_partition n ng gp gs -> ng < length gp -> n <= length gs -> sched_wf ng no lp pp np -> sched_complete ng np ->
  exists sups, aggressiveSupernodeGrouping n gp gs Lp Li no lp pp np = Ok (n, length sups) /\
    Permutation (concat sups) (seq 0 n) /\ (n = 0 <-> length sups = 0) /\ length sups <= n /\
    forall s, In s sups -> exists c ms, s = c :: ms /\
      forall m, In m ms -> c < m /\ column_tail Lp Li c m /\
        forall l p, node_place gp gs no lp pp np c l p <-> node_place gp gs no lp pp np m l p.
Proof.
  intros n Lp Li ng gp gs no lp pp np W NE GP LG LS SW SC.
  enough (HW : wp (aggressiveSupernodeGrouping n gp gs Lp Li no lp pp np) (fun r => exists sups, r = (n, length sups) /\
    Permutation (concat sups) (seq 0 n) /\ (n = 0 <-> length sups = 0) /\ length sups <= n /\
    forall s, In s sups -> exists c ms, s = c :: ms /\
      forall m, In m ms -> c < m /\ column_tail Lp Li c m /\
        forall l p, node_place gp gs no lp pp np c l p <-> node_place gp gs no lp pp np m l p)).
  { apply wp_ok in HW. destruct HW as (r & E & sups & -> & H). exists sups. auto. }
  unfold aggressiveSupernodeGrouping. wp1. eapply assign_nodes_wp; eauto. intros asg LA HA. wp1.
  apply aggr_supernodes_wp; auto. intros sups HP HG. wp1. exists sups.
  assert (HL : length (concat sups) = n) by (rewrite (Permutation_length HP); apply seq_length).
  assert (HN : length sups <= n).
  { rewrite <- HL. clear HP HL. induction sups as [|s sups IH]; cbn [concat length]; [lia|]. rewrite app_length.
    destruct (HG s (or_introl eq_refl)) as (c & ms & -> & _). cbn [length]. pose proof (IH (fun s Hs => HG s (or_intror Hs))). lia. }
  split; [now rewrite sum_lengths, HL|]. split; auto. split; [|split; auto].
  - split; [lia|]. intros E. destruct sups; [cbn [concat length] in HL; lia|discriminate].
  - intros s Hs. destruct (HG s Hs) as (c & ms & -> & HM). exists c, ms. split; auto. intros m Hm.
    destruct (HM m Hm) as (H1 & H2 & H3). split; auto. split; auto.
    assert (HI : forall y, In y (c :: ms) -> y < n).
    { intros y Hy. assert (In y (concat sups)) by (apply in_concat; eauto). apply (Permutation_in _ HP) in H. apply in_seq in H. lia. }
    assert (Hc : c < n) by (apply HI; now left). assert (Hm' : m < n) by (apply HI; now right).
    assert (HQ : forall a b, a < n -> b < n -> asg.[a] = asg.[b] -> forall l p, node_place gp gs no lp pp np a l p -> node_place gp gs no lp pp np b l p).
    { intros a b Ha Hb E l p Hpl. pose proof (HA _ _ _ Hpl) as E1.
      destruct (place_exists n ng gp gs no lp pp np GP LG LS SW SC b Hb) as (l' & p' & Hpl'). pose proof (HA _ _ _ Hpl') as E2.
      assert (EE : (p - lp.[l], l) = (p' - lp.[l'], l')) by congruence. injection EE as E3 <-.
      destruct Hpl as (? & ? & ? & (? & _) & _), Hpl' as (? & k' & g' & (B1 & B2) & B3).
      assert (p = p') as -> by lia. split; auto. exists k', g'. split; [split|]; auto. }
    intros l p. split; apply HQ; auto.
Qed.
Print Assumptions C111_supernode_average.

(** with no nodes, or with an empty column: the average is 0 / 0, and the code reads
    a range that ends before it begins *)
Theorem C111_empty_column_refuted :
  exists n Lp Li ng gp gs no lp pp np, wf_csc n Lp Li /\ group_partition n ng gp gs /\ sched_wf ng no lp pp np /\ sched_complete ng np /\
    aggressiveSupernodeGrouping n gp gs Lp Li no lp pp np = Err OOB.
Proof.
  exists 2, [0;1;1], [0], 2, [0;1;2], [0;1], 1, [0;1], [0;2], [0;1].
  assert (VS : valid_schedule 2 (fun _ _ => False) 1 [0;1] [0;2] [0;1]).
  { eapply valid_scheduleb_ok with (eb := fun _ _ => false); [intros ? ? []|vm_compute; reflexivity]. }
  split; [apply wf_cscb_ok; vm_compute; reflexivity|].
  split; [apply level_partitionb_ok; vm_compute; reflexivity|]. split; [apply VS|]. split; [apply VS|].
  vm_compute. reflexivity.
Qed.
Print Assumptions C111_empty_column_refuted.

Example C111_case :
  let Lp := [0;4;7;9;11;12] in let Li := [0;1;3;4;1;3;4;2;4;3;4;4] in
  wf_csc 5 Lp Li /\ (forall u, u < 5 -> Lp.[u] < Lp.[S u]) /\ group_partition 5 4 [0;2;3;4;5] [0;1;3;2;4] /\
  sched_wf 4 2 [0;2;3] [0;2;3;4] [0;1;2;3] /\ sched_complete 4 [0;1;2;3] /\
  aggressiveSupernodeGrouping 5 [0;2;3;4;5] [0;1;3;2;4] Lp Li 2 [0;2;3] [0;2;3;4] [0;1;2;3] = Ok (5, 4).
Proof.
  cbv zeta. assert (VS : valid_schedule 4 (fun _ _ => False) 2 [0;2;3] [0;2;3;4] [0;1;2;3]).
  { eapply valid_scheduleb_ok with (eb := fun _ _ => false); [intros ? ? []|vm_compute; reflexivity]. }
  split; [apply wf_cscb_ok; vm_compute; reflexivity|].
  split; [intros u Hu; do 5 (destruct u as [|u]; [vm_compute; lia|]); lia|].
  split; [apply level_partitionb_ok; vm_compute; reflexivity|]. split; [apply VS|]. split; [apply VS|].
  vm_compute. reflexivity.
Qed.
