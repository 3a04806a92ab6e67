(** Proofs about the ungrouping of a schedule of groups. *)
From Coq Require Import List Arith Lia Bool Permutation ZifyBool ZifyNat.
From Verif Require Import Base Lib Lib2 Lib3 Spec SpecSolve SpecGroup M_PostOrder M_Sched L_PostOrder L_Sched L_Sched2 M_Mat M_Group L_Group4.
Import ListNotations.

(** * Resorting the parts of a schedule *)

Lemma part_schedule_resorted n E no lp pp np np' key : part_schedule n E no lp pp np -> length np = n -> length pp = S lp.[no] ->
  resorted key pp np np' ->
  part_schedule n E no lp pp np' /\ ((forall u v, E u v -> key u < key v) -> valid_schedule n E no lp pp np').
Proof.
  intros ((A1 & A2 & A3 & A4 & A5 & A6 & A7 & A8) & (C1 & C2) & G) HLn HLp (R1 & R2 & R3 & R4).
  assert (NDn : NoDup np).
  { apply NoDup_nth with (d := 0). intros i j Hi Hj Hx. apply C2; try lia. exact Hx. }
  assert (NDn' : NoDup np') by (eapply Permutation_NoDup; [apply Permutation_sym; eauto|auto]).
  assert (HM : forall a b, a <= b -> b <= lp.[no] -> pp.[a] <= pp.[b]) by (apply (mono_le (aget pp)); auto).
  assert (HML : forall a b, a <= b -> b <= no -> lp.[a] <= lp.[b]) by (apply (mono_le (aget lp)); auto).
  assert (SW : sched_wf n no lp pp np') by (unfold sched_wf; splits; auto; lia).
  assert (SC : sched_complete n np').
  { split.
    - intros k Hk. assert (Hin : In np'.[k] np') by (apply aget_In; lia).
      apply (Permutation_in _ R2) in Hin. apply In_aget in Hin. destruct Hin as (i & Hi & <-). apply C1. lia.
    - intros k k' Hk Hk' Hx. apply (NoDup_aget np'); auto; lia. }
  assert (SL : forall l p k x, l < no -> sched_at lp pp np' l p k x -> exists k0, sched_at lp pp np l p k0 x).
  { intros l p k x Hl (H1 & H2 & H3). pose proof (HML (S l) no ltac:(lia) ltac:(lia)) as HB.
    assert (HP : p < lp.[no]) by lia. pose proof (HM (S p) lp.[no] ltac:(lia) ltac:(lia)) as HPB.
    assert (Hin : In x (slice np' pp.[p] pp.[S p])) by (rewrite In_slice by lia; exists k; split; auto).
    apply (Permutation_in _ (R3 p ltac:(lia))) in Hin. rewrite In_slice in Hin by lia. destruct Hin as (k0 & Hk0 & E0).
    exists k0. unfold sched_at. splits; auto; lia. }
  assert (SG : sched_grouped E no lp pp np').
  { intros u v lu pu ku lv pv kv He Hu Hv HA HB. destruct (SL _ _ _ _ Hu HA) as (k1 & H1). destruct (SL _ _ _ _ Hv HB) as (k2 & H2).
    eapply G; eauto. }
  split; [unfold part_schedule; auto|]. intros HK. unfold valid_schedule. splits; auto.
  intros u v lu pu ku lv pv kv He Hu Hv HA HB. destruct (SG u v lu pu ku lv pv kv He Hu Hv HA HB) as [|(-> & ->)]; auto.
  right. splits; auto. destruct (Nat.lt_ge_cases ku kv) as [|Hge]; auto. exfalso.
  destruct HA as (H1 & H2 & H3). destruct HB as (_ & H5 & H6).
  pose proof (HML (S lv) no ltac:(lia) ltac:(lia)). pose proof (HM (S pv) lp.[no] ltac:(lia) ltac:(lia)).
  specialize (R4 pv ltac:(lia)). specialize (HK u v He).
  set (sl := slice np' pp.[pv] pp.[S pv]) in *.
  assert (Lsl : length sl = pp.[S pv] - pp.[pv]) by (apply slice_length; lia).
  assert (Gk : forall i, i < length sl -> (map key sl).[i] = key (np'.[pp.[pv] + i])).
  { intros i Hi. rewrite (aget_map key sl i) by auto. unfold sl. now rewrite aget_slice by lia. }
  assert (X : (map key sl).[kv - pp.[pv]] <= (map key sl).[ku - pp.[pv]]).
  { destruct (Nat.eq_dec kv ku) as [->|]; auto. apply R4; rewrite ?map_length; lia. }
  rewrite !Gk in X by lia. replace (pp.[pv] + (kv - pp.[pv])) with kv in X by lia.
  replace (pp.[pv] + (ku - pp.[pv])) with ku in X by lia. rewrite H3, H6 in X. lia.
Qed.

(** * Nested loops over the parts of the levels *)

Lemma for_cols {T} (body : nat -> T -> res T) (P : list nat) m s :
  m < length P -> (forall i, i < m -> P.[i] <= P.[S i]) ->
  for_ 0 m (fun i s => a <- rd P i ;; b <- rd P (S i) ;; for_ a b body s) s = for_ P.[0] P.[m] body s.
Proof.
  intros HL HM. induction m as [|m IH].
  - rewrite !for_nil by lia. auto.
  - rewrite (for_split _ 0 m (S m)) by lia. rewrite IH by (try lia; intros; apply HM; lia).
    rewrite (for_split body P.[0] P.[m] P.[S m]); [|apply (mono_le (aget P) (S m)); auto; lia|apply HM; lia].
    destruct (for_ P.[0] P.[m] body s) as [s'|e]; simpl; auto.
    rewrite for_step by lia. rewrite !rd_ok by lia. simpl.
    destruct (for_ P.[m] P.[S m] body s') as [s2|e]; simpl; auto. now rewrite for_nil by lia.
Qed.

Lemma sort_range_nil l a : a <= length l -> sort_range l a a = Ok l.
Proof.
  intros H. unfold sort_range. rewrite Nat.leb_refl. destruct (Nat.leb_spec a (length l)); [|lia]. simpl.
  rewrite slice_nil by lia. simpl. now rewrite firstn_skipn.
Qed.

(** * Unpacking *)

Lemma NoDup_flat_map {A B} (f : A -> list B) l : NoDup l -> (forall x, In x l -> NoDup (f x)) ->
  (forall x y z, In x l -> In y l -> In z (f x) -> In z (f y) -> x = y) -> NoDup (flat_map f l).
Proof.
  induction l as [|a t IH]; simpl; intros HN HF HD; [constructor|].
  inversion HN as [|? ? H1 H2]; subst. apply NoDup_app_iff. splits; auto.
  - apply IH; auto. intros x y z Hx Hy. apply HD; auto.
  - intros z Hz Hz'. apply in_flat_map in Hz'. destruct Hz' as (y & Hy & Hyz). apply H1.
    rewrite (HD a y z); auto.
Qed.

Section Ungroup.
Variables (n ng : nat) (gp gs : list nat) (E : nat -> nat -> Prop) (no : nat) (lp ptr nd : list nat).
Hypothesis GR : grouping n ng gp gs.
Hypothesis HE : forall u v, E u v -> u < n /\ v < n.
Notation QE := (quotient E ng gp gs).
Hypothesis SW : sched_wf ng no lp ptr nd.
Hypothesis SC : sched_complete ng nd.
Hypothesis SG : sched_grouped QE no lp ptr nd.

Definition gl (k : nat) : list nat := slice gs gp.[nd.[k]] gp.[S nd.[k]].
Definition fl (a b : nat) : list nat := flat_map gl (seq a (b - a)).

Lemma fl_app a b c : a <= b -> b <= c -> fl a c = fl a b ++ fl b c.
Proof.
  intros H1 H2. unfold fl. rewrite <- flat_map_app. f_equal.
  replace (c - a) with ((b - a) + (c - b)) by lia. rewrite seq_app. now replace (a + (b - a)) with b by lia.
Qed.

Lemma fl_S a b : a <= b -> fl a (S b) = fl a b ++ gl b.
Proof. intros H. rewrite (fl_app a b) by lia. f_equal. unfold fl. replace (S b - b) with 1 by lia. simpl. now rewrite app_nil_r. Qed.

Lemma fl_nil a : fl a a = [].
Proof. unfold fl. now rewrite Nat.sub_diag. Qed.

Lemma gp_bound g : g < ng -> gp.[g] <= gp.[S g] /\ gp.[S g] <= n.
Proof.
  intros Hg. destruct GR as (G1 & G2 & (P1 & P2 & P3 & P4 & P5) & G3). split; auto.
  rewrite <- P3. apply (mono_le (aget gp) ng); auto; lia.
Qed.

Lemma gl_in k x : k < ng -> (In x (gl k) <-> in_level gp gs nd.[k] x).
Proof.
  intros Hk. pose proof GR as (G1 & G2 & _). destruct SC as (C1 & C2). destruct (gp_bound nd.[k] (C1 k Hk)) as (B1 & B2).
  unfold gl, in_level. rewrite In_slice by lia. split; intros (i & H1 & H2); exists i; split; auto.
Qed.

Lemma fl_in a b x : b <= ng -> (In x (fl a b) <-> exists k, a <= k < b /\ in_level gp gs nd.[k] x).
Proof.
  intros Hb. unfold fl. rewrite in_flat_map. split.
  - intros (k & Hk & Hx). apply in_seq in Hk. exists k. split; [lia|]. apply gl_in; auto. lia.
  - intros (k & Hk & Hx). exists k. split; [apply in_seq; lia|]. apply gl_in; auto. lia.
Qed.

Lemma group_unique g h x : g < ng -> h < ng -> in_level gp gs g x -> in_level gp gs h x -> g = h.
Proof.
  intros Hg Hh (k & Hk & Ek) (k' & Hk' & Ek'). destruct GR as (G1 & G2 & (P1 & P2 & P3 & P4 & P5) & G3).
  pose proof (gp_bound g Hg). pose proof (gp_bound h Hh).
  assert (k = k') by (apply P5; try lia). subst k'. apply (bucket_unique (aget gp) ng g h k); auto.
Qed.

Lemma group_exists x : x < n -> exists g, g < ng /\ in_level gp gs g x.
Proof.
  intros Hx. destruct GR as (G1 & G2 & (P1 & P2 & P3 & P4 & P5) & G3).
  destruct (inj_onto n (aget gs) P4 P5 x Hx) as (i & Hi & Ei).
  destruct (bucket_exists (aget gp) ng i) as (g & Hg & Hb); [lia|lia|].
  exists g. split; auto. exists i. auto.
Qed.

Lemma fl_perm : is_perm n (fl 0 ng).
Proof.
  pose proof GR as (G1 & G2 & (P1 & P2 & P3 & P4 & P5) & G3). pose proof SC as (C1 & C2).
  assert (ND : NoDup (fl 0 ng)).
  { unfold fl. apply NoDup_flat_map; [apply seq_NoDup| |].
    - intros k Hk. apply in_seq in Hk. destruct (gp_bound nd.[k]) as (B1 & B2); [apply C1; lia|].
      apply NoDup_nth with (d := 0). intros i j Hi Hj Hx. unfold gl in *. rewrite slice_length in * by lia.
      change (nth i (slice gs gp.[nd.[k]] gp.[S nd.[k]]) 0) with ((slice gs gp.[nd.[k]] gp.[S nd.[k]]).[i]) in Hx.
      change (nth j (slice gs gp.[nd.[k]] gp.[S nd.[k]]) 0) with ((slice gs gp.[nd.[k]] gp.[S nd.[k]]).[j]) in Hx.
      rewrite !aget_slice in Hx by lia. apply P5 in Hx; lia.
    - intros k k' z Hk Hk' Hz Hz'. apply in_seq in Hk. apply in_seq in Hk'. apply gl_in in Hz; [|lia]. apply gl_in in Hz'; [|lia].
      apply C2; try lia. apply (group_unique _ _ z); auto; apply C1; lia. }
  assert (HB : forall x, In x (fl 0 ng) -> x < n).
  { intros x Hx. apply fl_in in Hx; [|lia]. destruct Hx as (k & Hk & i & Hi & <-).
    destruct (gp_bound nd.[k]); [apply C1; lia|]. apply P4. lia. }
  apply is_perm_intro; auto. apply Nat.le_antisymm.
  - now apply NoDup_bounded_length.
  - rewrite <- (seq_length n 0) at 1. apply NoDup_incl_length; [apply seq_NoDup|]. intros x Hx. apply in_seq in Hx.
    destruct (group_exists x ltac:(lia)) as (g & Hg & Hxg).
    destruct (inj_onto ng (aget nd) C1 C2 g Hg) as (k & Hk & Ek). apply fl_in; [lia|]. exists k. rewrite Ek. split; auto. lia.
Qed.

Definition upp : list nat := map (fun j => length (fl 0 ptr.[j])) (seq 0 (S lp.[no])).

Lemma ptr_le j : j <= lp.[no] -> ptr.[j] <= ng.
Proof.
  intros Hj. destruct SW as (A1 & A2 & A3 & A4 & A5 & A6 & A7 & A8). rewrite <- A7. apply (mono_le (aget ptr) lp.[no]); auto.
Qed.

Lemma ptr_mono a b : a <= b -> b <= lp.[no] -> ptr.[a] <= ptr.[b].
Proof. destruct SW as (A1 & A2 & A3 & A4 & A5 & A6 & A7 & A8). apply (mono_le (aget ptr) lp.[no]); auto. Qed.

Lemma upp_get j : j <= lp.[no] -> upp.[j] = length (fl 0 ptr.[j]).
Proof.
  intros Hj. unfold upp. rewrite (aget_map _ (seq 0 (S lp.[no])) j) by (rewrite seq_length; lia). now rewrite aget_seq by lia.
Qed.

Lemma unpack_groups_wp (Q : _ -> Prop) : Q (upp, fl 0 ng) -> wp (unpack_groups no lp ptr nd gp gs) Q.
Proof.
  intros HQ. unfold unpack_groups. pose proof SW as (A1 & A2 & A3 & A4 & A5 & A6 & A7 & A8).
  pose proof GR as (G1 & G2 & _). pose proof SC as (C1 & C2). wp1.
  apply (wp_cols (fun j (st : list nat * list nat) => let '(pp, np) := st in j <= lp.[no] ->
    pp = map (fun j => length (fl 0 ptr.[j])) (seq 0 j) /\ np = fl 0 ptr.[j])); auto.
  - intros _. rewrite A5. split; auto.
  - intros i j (pp, np) Hi Hj HI.
    assert (Hj2 : S j <= lp.[no]). { assert (lp.[S i] <= lp.[no]) by (apply (mono_le (aget lp) no); auto; lia). lia. }
    destruct (HI ltac:(lia)) as (-> & ->). pose proof (ptr_mono j (S j) ltac:(lia) Hj2). pose proof (ptr_le (S j) Hj2).
    wp1. wp1; [lia|]. wp1. wp1; [lia|]. wp1.
    apply (wp_for (fun k np => np = fl 0 k)); auto.
    + intros k np Hk ->. wp1. wp1; [lia|]. pose proof (C1 k ltac:(lia)) as Hg. destruct (gp_bound _ Hg) as (B1 & B2).
      wp1. wp1; [lia|]. wp1. wp1; [lia|].
      apply (wp_for (fun q np => np = fl 0 k ++ slice gs gp.[nd.[k]] q)); auto.
      * rewrite slice_nil by lia. now rewrite app_nil_r.
      * intros q np Hq ->. wp1. wp1; [lia|]. wp1. rewrite <- app_assoc. f_equal.
        rewrite (slice_app gs _ q (S q)) by lia. f_equal. rewrite slice_cons by lia. now rewrite slice_nil by lia.
      * intros np ->. now rewrite fl_S by lia.
    + intros np ->. wp1. intros _. split; auto. rewrite seq_S, map_app. reflexivity.
  - intros (pp, np) HI. destruct (HI ltac:(lia)) as (-> & ->). wp1. rewrite A7. 
    replace (_ ++ [_], fl 0 ng) with (upp, fl 0 ng); auto. f_equal. unfold upp. rewrite seq_S, map_app. simpl. now rewrite A7.
Qed.

(** a position of a part holds a member of one of the part's groups *)
Lemma unpacked_at l p k x : l < no -> sched_at lp upp (fl 0 ng) l p k x ->
  exists k0 g, g < ng /\ sched_at lp ptr nd l p k0 g /\ in_level gp gs g x.
Proof.
  intros Hl (H1 & H2 & H3). pose proof SW as (A1 & A2 & A3 & A4 & A5 & A6 & A7 & A8).
  assert (Hp : S p <= lp.[no]). { assert (lp.[S l] <= lp.[no]) by (apply (mono_le (aget lp) no); auto; lia). lia. }
  rewrite !upp_get in H2 by lia. pose proof (ptr_le (S p) Hp). pose proof (ptr_mono p (S p) ltac:(lia) Hp).
  assert (Hin : In x (fl ptr.[p] ptr.[S p])).
  { rewrite (fl_app 0 ptr.[S p] ng) in H3 by lia. rewrite (fl_app 0 ptr.[p] ptr.[S p]) in H3 by lia.
    rewrite (fl_app 0 ptr.[p] ptr.[S p]), app_length in H2 by lia.
    rewrite <- app_assoc in H3. rewrite aget_app2 in H3 by lia. rewrite aget_app1 in H3 by lia. rewrite <- H3. apply aget_In. lia. }
  apply fl_in in Hin; auto. destruct Hin as (k0 & Hk0 & Hx). exists k0, nd.[k0]. destruct SC as (C1 & C2). splits; auto; [apply C1; lia|].
  unfold sched_at. splits; auto; lia.
Qed.

Lemma sched_pos_unique l l' p p' k x : l < no -> l' < no -> sched_at lp ptr nd l p k x -> sched_at lp ptr nd l' p' k x -> l = l' /\ p = p'.
Proof.
  intros Hl Hl' (H1 & H2 & _) (H4 & H5 & _). pose proof SW as (A1 & A2 & A3 & A4 & A5 & A6 & A7 & A8).
  assert (lp.[S l] <= lp.[no]) by (apply (mono_le (aget lp) no); auto; lia).
  assert (lp.[S l'] <= lp.[no]) by (apply (mono_le (aget lp) no); auto; lia).
  assert (p = p') by (apply (bucket_unique (aget ptr) lp.[no] p p' k); auto; lia). subst p'. split; auto.
  apply (bucket_unique (aget lp) no l l' p); auto; lia.
Qed.

Lemma unpacked_schedule : part_schedule n E no lp upp (fl 0 ng).
Proof.
  pose proof SW as (A1 & A2 & A3 & A4 & A5 & A6 & A7 & A8). pose proof fl_perm as FP. pose proof FP as (F1 & F2 & F3).
  pose proof SC as (C1 & C2).
  unfold part_schedule. splits.
  - unfold sched_wf. splits; auto.
    + unfold upp. rewrite map_length, seq_length. lia.
    + rewrite upp_get by lia. now rewrite A5.
    + intros p Hp. rewrite !upp_get by lia. rewrite (fl_app 0 ptr.[p] ptr.[S p]) by (try lia; auto). rewrite app_length. lia.
    + rewrite upp_get by lia. now rewrite A7.
    + lia.
  - split; [intros k Hk; now apply (is_perm_lt n)|intros k k' Hk Hk'; now apply (is_perm_inj n)].
  - intros u v lu pu ku lv pv kv He Hu Hv HA HB.
    destruct (unpacked_at _ _ _ _ Hu HA) as (k1 & g & Hg & S1 & M1). destruct (unpacked_at _ _ _ _ Hv HB) as (k2 & h & Hh & S2 & M2).
    destruct (Nat.eq_dec g h) as [->|Hne].
    + right. assert (k1 = k2).
      { assert (HP : forall l p k x, l < no -> sched_at lp ptr nd l p k x -> k < ng /\ nd.[k] = x).
        { intros l p k x Hl (X1 & X2 & X3). split; auto.
          assert (lp.[S l] <= lp.[no]) by (apply (mono_le (aget lp) no); auto; lia). pose proof (ptr_le (S p) ltac:(lia)). lia. }
        destruct (HP _ _ _ _ Hu S1) as (X1 & X2). destruct (HP _ _ _ _ Hv S2) as (X3 & X4). apply C2; auto. congruence. }
      subst k2. eapply sched_pos_unique; eauto.
    + apply (SG g h lu pu k1 lv pv k2); auto. unfold quotient. splits; auto. exists u, v. auto.
Qed.

(** with no sorting, the order inside the parts comes from the order of the groups and
    inside the groups *)
Lemma unpacked_ordered : sched_ordered QE no lp ptr nd -> group_ordered E ng gp gs -> sched_ordered E no lp upp (fl 0 ng).
Proof.
  intros SO GO u v lu pu ku lv pv kv He Hu Hv HA HB.
  pose proof SW as (A1 & A2 & A3 & A4 & A5 & A6 & A7 & A8). pose proof SC as (C1 & C2).
  pose proof GR as (G1 & G2 & (P1 & P2 & P3 & P4 & P5) & G3).
  (* positions *)
  assert (HP : forall l p k x, l < no -> sched_at lp upp (fl 0 ng) l p k x ->
    exists k0 i, sched_at lp ptr nd l p k0 nd.[k0] /\ k0 < ng /\ k = length (fl 0 k0) + i /\
      i < gp.[S nd.[k0]] - gp.[nd.[k0]] /\ x = gs.[gp.[nd.[k0]] + i]).
  { intros l p k x Hl (H1 & H2 & H3).
    assert (Hp : S p <= lp.[no]). { assert (lp.[S l] <= lp.[no]) by (apply (mono_le (aget lp) no); auto; lia). lia. }
    rewrite !upp_get in H2 by lia. pose proof (ptr_le (S p) Hp). pose proof (ptr_mono p (S p) ltac:(lia) Hp).
    assert (HFm : forall a b, a <= b -> length (fl 0 a) <= length (fl 0 b)).
    { intros a b Hab. rewrite (fl_app 0 a b) by lia. rewrite app_length. lia. }
    assert (HX : exists k0, k0 < ng /\ length (fl 0 k0) <= k < length (fl 0 (S k0))).
    { destruct (bucket_exists (fun a => length (fl 0 a)) ng k) as (k0 & B1 & B2).
      - simpl. lia.
      - pose proof (HFm ptr.[S p] ng ltac:(lia)). lia.
      - exists k0. auto. }
    destruct HX as (k0 & B1 & B2). pose proof (C1 k0 B1) as Hg. destruct (gp_bound _ Hg) as (B3 & B4).
    rewrite fl_S, app_length in B2 by lia. unfold gl in B2. rewrite slice_length in B2 by lia.
    exists k0, (k - length (fl 0 k0)). splits; auto; try lia.
    - unfold sched_at. splits; auto; try lia.
      + destruct (Nat.le_gt_cases ptr.[p] k0) as [|Hlt]; auto. pose proof (HFm (S k0) ptr.[p] ltac:(lia)) as Hc.
        rewrite fl_S, app_length in Hc by lia. unfold gl in Hc. rewrite slice_length in Hc by lia. lia.
      + destruct (Nat.lt_ge_cases k0 ptr.[S p]) as [|Hge]; auto. pose proof (HFm ptr.[S p] k0 Hge). lia.
    - rewrite <- H3. rewrite (fl_app 0 k0 ng) by lia. rewrite aget_app2 by lia.
      rewrite (fl_app k0 (S k0) ng) by lia. replace (fl k0 (S k0)) with (gl k0) by (rewrite fl_S, fl_nil by lia; auto).
      rewrite aget_app1; unfold gl; [|rewrite slice_length; lia]. rewrite aget_slice by lia. auto. }
  destruct (HP _ _ _ _ Hu HA) as (k1 & i & S1 & L1 & E1 & I1 & X1).
  destruct (HP _ _ _ _ Hv HB) as (k2 & j & S2 & L2 & E2 & I2 & X2).
  assert (HFm : forall a b, a <= b -> length (fl 0 a) <= length (fl 0 b)).
  { intros a b Hab. rewrite (fl_app 0 a b) by lia. rewrite app_length. lia. }
  destruct (Nat.eq_dec nd.[k1] nd.[k2]) as [Eg|Hne].
  - assert (k1 = k2) by (apply C2; auto). subst k2. right.
    destruct (sched_pos_unique _ _ _ _ _ _ Hu Hv S1 S2) as (-> & ->). splits; auto.
    subst u v. apply (GO nd.[k1]) in He; try lia; auto.
  - assert (HQ : QE nd.[k1] nd.[k2]).
    { unfold quotient. splits; auto. exists u, v. splits; auto.
      - exists (gp.[nd.[k1]] + i). split; auto. lia.
      - exists (gp.[nd.[k2]] + j). split; auto. lia. }
    destruct (SO _ _ _ _ _ _ _ _ HQ Hu Hv S1 S2) as [|(-> & -> & Hlt)]; auto. right. splits; auto.
    pose proof (HFm (S k1) k2 ltac:(lia)) as Hc. rewrite fl_S, app_length in Hc by lia. unfold gl in Hc.
    destruct (gp_bound nd.[k1] (C1 k1 L1)). rewrite slice_length in Hc by lia. lia.
Qed.

Lemma upp_len : length upp = S lp.[no].
Proof. unfold upp. now rewrite map_length, seq_length. Qed.

Lemma ungroup_sort_eq pp np : length pp = S lp.[no] -> pp.[lp.[no]] <= length np -> (forall q, q < lp.[no] -> pp.[q] <= pp.[S q]) ->
  forall Q : list nat -> Prop, (forall np', resorted (fun x => x) pp np np' -> Q np') -> wp (ungroup_sort no lp pp np) Q.
Proof.
  intros HL HB HM Q HQ. pose proof SW as (A1 & A2 & A3 & A4 & A5 & A6 & A7 & A8). unfold ungroup_sort.
  rewrite (for_cols _ lp no np A1 A3), A2.
  assert (HMM : forall a b, a <= b -> b <= lp.[no] -> pp.[a] <= pp.[b]) by (apply (mono_le (aget pp)); auto).
  assert (G : wp (sort_ids pp np) Q).
  { apply sort_ids_wp; auto; try lia. - intros q Hq. apply HM. lia. - rewrite HL. replace (S lp.[no] - 1) with lp.[no] by lia. lia. }
  unfold sort_ids in G. rewrite HL in G. replace (S lp.[no] - 1) with lp.[no] in G by lia.
  (* the two loops agree as long as the length is kept *)
  assert (X : forall m, m <= lp.[no] -> forall s, length s = length np ->
    for_ (lp.[no] - m) lp.[no] (fun j1 np => c <- rd pp j1;; d <- rd pp (S j1);; (if c =? d then Ok np else sort_range np c d)) s =
    for_ (lp.[no] - m) lp.[no] (fun i np => a <- rd pp i;; b <- rd pp (S i);; sort_range np a b) s).
  { induction m as [|m IH]; intros Hm s Hs.
    - rewrite !for_nil by lia. auto.
    - rewrite !(for_step _ (lp.[no] - S m)) by lia. rewrite !rd_ok by lia. cbn [bind].
      replace (S (lp.[no] - S m)) with (lp.[no] - m) by lia.
      set (c := pp.[lp.[no] - S m]). set (d := pp.[lp.[no] - m]).
      assert (Hcd : c <= d <= length s).
      { unfold c, d. split; [apply HMM; lia|]. rewrite Hs. pose proof (HMM (lp.[no] - m) lp.[no]). lia. }
      destruct (Nat.eqb_spec c d) as [Ecd|Ecd].
      + rewrite <- Ecd, sort_range_nil by lia. cbn [bind]. apply IH; auto. lia.
      + assert (HW : wp (sort_range s c d) (fun s' => length s' = length s)) by (apply sort_range_wp; auto; lia).
        destruct (sort_range s c d) as [s'|]; simpl in *; auto. apply IH; auto; lia. }
  specialize (X lp.[no] ltac:(lia) np eq_refl). rewrite Nat.sub_diag in X. rewrite X. exact G.
Qed.

Variables (Lp Li : list nat).
Hypothesis EE : E = edge n Lp Li.
Hypothesis W : wf_csc n Lp Li.

Lemma ungrouping_sorted_wp junk (Q : _ -> Prop) dag :
  (forall pp np, length pp = S lp.[no] -> length np = n -> part_schedule n E no lp pp np ->
     (lower_tri n Lp Li -> valid_schedule n E no lp pp np) ->
     (forall p, p < lp.[no] -> sorted_le (slice np pp.[p] pp.[S p])) -> Q (pp, np)) ->
  wp (ungrouping junk n no lp ptr nd gp gs dag true false) Q.
Proof.
  intros HQ. unfold ungrouping. cbn [andb]. wp1. apply unpack_groups_wp. wp1.
  pose proof unpacked_schedule as US. pose proof fl_perm as (F1 & F2 & F3). pose proof US as ((U1 & U2 & U3 & U4 & U5 & U6 & U7 & U8) & _).
  apply ungroup_sort_eq; [apply upp_len|lia|auto|].
  intros np' RS. wp1. destruct (part_schedule_resorted _ _ _ _ _ _ _ _ US F1 upp_len RS) as (R1 & R2).
  apply HQ; auto.
  - apply upp_len.
  - destruct RS as (R & _). lia.
  - intros HT. apply R2. rewrite EE. apply HT.
  - intros p Hp. destruct RS as (_ & _ & _ & R). specialize (R p). rewrite map_id in R. apply R. rewrite upp_len. lia.
Qed.

Lemma ungrouping_plain_wp junk (Q : _ -> Prop) dag :
  (forall pp np, length pp = S lp.[no] -> length np = n -> part_schedule n E no lp pp np ->
     (sched_ordered QE no lp ptr nd -> group_ordered E ng gp gs -> valid_schedule n E no lp pp np) -> Q (pp, np)) ->
  wp (ungrouping junk n no lp ptr nd gp gs dag false false) Q.
Proof.
  intros HQ. unfold ungrouping. cbn [andb]. wp1. apply unpack_groups_wp. wp1.
  pose proof unpacked_schedule as US. pose proof fl_perm as (F1 & F2 & F3).
  apply HQ; auto; [apply upp_len|]. intros SO GO. destruct US as (U1 & U2 & _). unfold valid_schedule. splits; auto. now apply unpacked_ordered.
Qed.

Lemma ungrouping_post_wp junk (Q : _ -> Prop) : diag_first n Lp Li -> acyclic E ->
  (forall pp np, length pp = S lp.[no] -> length np = n -> valid_schedule n E no lp pp np -> Q (pp, np)) ->
  wp (ungrouping junk n no lp ptr nd gp gs (Some (Lp, Li)) false true) Q.
Proof.
  intros HF HA HQ. unfold ungrouping. cbn [andb]. wp1. apply unpack_groups_wp. wp1. unfold ungroup_post.
  pose proof unpacked_schedule as US. pose proof fl_perm as FP. pose proof FP as (F1 & F2 & F3).
  pose proof US as ((U1 & U2 & U3 & U4 & U5 & U6 & U7 & U8) & _).
  rewrite EE in HA. wp1. eapply wp_mono; [apply (computePostOrder_wp n Lp Li W HF HA)|]. intros po (PO1 & PO2).
  wp1. apply inverse_wp; auto. intros inv I1 I2 I3 I4.
  wp1. rewrite (for_cols _ lp no _ U1 U3), U2.
  assert (G : wp (sort_post upp po inv (repeat 0 n) (fl 0 ng)) (fun st => let '(_, np') := st in Q (upp, np'))).
  { apply (sort_post_wp n); auto; try (rewrite upp_len; lia); try apply repeat_length; try lia.
    - intros q Hq. apply U6. rewrite upp_len in Hq. lia.
    - rewrite upp_len. replace (S lp.[no] - 1) with lp.[no] by lia. lia.
    - apply PO1.
    - intros x Hx. apply In_aget in Hx. destruct Hx as (i & Hi & <-). apply (is_perm_lt n); auto. lia.
    - intros buf' np' HLb RS. destruct (part_schedule_resorted _ _ _ _ _ _ _ _ US F1 upp_len RS) as (R1 & R2).
      apply HQ; [apply upp_len|destruct RS as (R & _); lia|]. apply R2. intros u v He. destruct (HE u v He) as (Hu & Hv).
      apply PO2; auto. rewrite !I3 by auto. rewrite <- EE. exact He. }
  unfold sort_post in G. rewrite upp_len in G. replace (S lp.[no] - 1) with lp.[no] in G by lia.
  eapply wp_mono; [exact G|]. intros (b & np') H. wp1. exact H.
Qed.

End Ungroup.
