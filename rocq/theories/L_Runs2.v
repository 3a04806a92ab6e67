(** Proofs about the row-based group graph of the demo inspector. *)
From Coq Require Import ZifyBool ZifyNat.
From Verif Require Import Base Lib Lib2 Lib3 SpecRuns M_Runs L_Group L_Runs.

Lemma sorted_le_snoc l x : sorted_le l -> (forall y, In y l -> y <= x) -> sorted_le (l ++ [x]).
Proof.
  intros HS HI i j Hij Hj. rewrite app_length in Hj. simpl in Hj. destruct (Nat.eq_dec j (length l)) as [->|].
  - rewrite aget_app_last, aget_app1 by lia. apply HI. apply aget_In. lia.
  - rewrite !aget_app1 by lia. apply HS; lia.
Qed.

Section Dep.
Variables (n ng : nat) (gp gs inv Lp Li : list nat).
Hypothesis W : wf_csc n Lp Li.
Hypothesis GP : group_partition n ng gp gs.
Hypothesis HLg : ng < length gp.
Hypothesis HLs : n <= length gs.
Hypothesis HLi : n <= length inv.
Hypothesis HI : forall g v, g < ng -> in_level gp gs g v -> inv.[v] = g.

Lemma inv_lt v : v < n -> inv.[v] < ng.
Proof. intros Hv. destruct (in_level_exists n ng gp gs GP HLg HLs v Hv) as (g & Hg & Hin). rewrite (HI g v Hg Hin). auto. Qed.

Lemma inv_in v : v < n -> in_level gp gs inv.[v] v.
Proof. intros Hv. destruct (in_level_exists n ng gp gs GP HLg HLs v Hv) as (g & Hg & Hin). now rewrite (HI g v Hg Hin). Qed.

(** the edges found when the rows at positions before [p], and the entries before [e] of the
    row at [p], have been seen *)
Definition seen (p e : nat) (sid h : nat) : Prop :=
  sid <> h /\ exists q j, gp.[h] <= q < gp.[S h] /\ Lp.[gs.[q]] <= j < Lp.[S gs.[q]] - 1 /\ inv.[Li.[j]] = sid /\ (q < p \/ (q = p /\ j < e)).

Definition DInv (i p e : nat) (D : list (list nat)) : Prop :=
  length D = ng /\ (forall s, s < ng -> sorted_le D.[s] /\ forall h, In h D.[s] -> h <= i) /\
  (forall s h, s < ng -> h < ng -> (In h D.[s] <-> seen p e s h)).

Lemma fs_csr_inspector_dep_wp : wp (fs_csr_inspector_dep ng gp gs inv Lp Li (repeat [] ng)) (fun D => length D = ng /\
  forall s, s < ng -> sorted_le D.[s] /\ forall h, In h D.[s] <-> quotient (row_dep n Lp Li) ng gp gs s h).
Proof.
  pose proof GP as (G0 & Gm & Gn & Gb & Gi). pose proof W as (W1 & W2 & W3 & W4 & W5). unfold fs_csr_inspector_dep.
  apply (wp_for (fun i D => length D = ng /\ (forall s, s < ng -> sorted_le D.[s] /\ forall h, In h D.[s] -> h < i) /\ (forall s h, s < ng -> h < ng -> (In h D.[s] <-> seen gp.[i] 0 s h)))).
  - lia.
  - rewrite repeat_length. split; auto. split.
    + intros s Hs. rewrite aget_repeat by auto. split; [apply sorted_le_nil|]. intros h [].
    + intros s h Hs Hh. rewrite aget_repeat by auto. split; [intros []|]. intros (_ & q & j & Hq & _ & _ & Hp). lia.
  - intros i D Hi (D1 & D2 & D3). wp1. wp1; [lia|]. wp1. wp1; [lia|]. pose proof (gp_le n ng gp gs GP HLg HLs (S i) ltac:(lia)) as Hle.
    apply (wp_for (fun p D => DInv i p 0 D)).
    + apply Gm. lia.
    + split; auto. split; auto. intros s Hs. destruct (D2 s Hs) as [K1 K2]. split; auto. intros h Hh. specialize (K2 h Hh). lia.
    + intros p D' Hp HD. wp1. wp1; [lia|]. pose proof (Gb p ltac:(lia)) as Hr. set (r := gs.[p]) in *. wp1. wp1; [lia|]. wp1. wp1; [lia|].
      destruct (lp_len n Lp Li W r Hr) as (B1 & B2).
      assert (HX : forall e D, Lp.[S r] - 1 <= e -> DInv i p e D -> DInv i (S p) 0 D).
      { intros e D0 He (X1 & X2 & X3). split; auto. split; auto. intros s h Hs Hh. rewrite X3 by auto. unfold seen. split; intros (Hne & q & j & Hq & Hj & Ej & Hpq); (split; [auto|]);
          exists q, j; splits; auto; try lia.
        destruct (Nat.eq_dec q p) as [->|]; [right; fold r in Hj|left]; lia. }
      destruct (Nat.le_gt_cases (Lp.[S r] - 1) Lp.[r]) as [Hemp|Hne].
      { replace (for_ Lp.[r] (Lp.[S r] - 1)) with (@for_ (list (list nat)) 0 0) by (unfold for_; replace (Lp.[S r] - 1 - Lp.[r]) with 0 by lia; reflexivity).
        cbn. apply (HX Lp.[r]); auto. destruct HD as (X1 & X2 & X3). split; auto. split; auto. intros s h Hs Hh. rewrite X3 by auto. unfold seen.
        split; intros (Hne & q & j & Hq & Hj & Ej & Hpq); (split; [auto|]); exists q, j; splits; auto; try lia.
        destruct Hpq as [|[-> Hje]]; auto. fold r in Hj. lia. }
      apply (wp_for (fun e D => DInv i p e D)).
      * lia.
      * destruct HD as (X1 & X2 & X3). split; auto. split; auto. intros s h Hs Hh. rewrite X3 by auto. unfold seen.
        split; intros (Hne' & q & j & Hq & Hj & Ej & Hpq); (split; [auto|]); exists q, j; splits; auto; try lia.
        destruct Hpq as [|[-> Hje]]; auto. fold r in Hj. lia.
      * intros e D'' He (X1 & X2 & X3). assert (Hee : e < Lp.[n]) by (assert (Lp.[S r] <= Lp.[n]) by (apply (mono_le (aget Lp) n); auto; lia); lia).
        wp1. wp1; [lia|]. pose proof (W5 e Hee) as Hc. wp1. wp1; [lia|]. pose proof (inv_lt _ Hc) as Hs.
        assert (ST : forall s h, s < ng -> h < ng -> (seen p (S e) s h <-> seen p e s h \/ (h = i /\ s <> h /\ inv.[Li.[e]] = s))).
        { intros s h _ Hh. unfold seen. split.
          - intros (Hn & q & j & Hq & Hj & Ej & Hpq). destruct (Nat.eq_dec q p) as [->|]; [destruct (Nat.eq_dec j e) as [->|]|].
            + right. splits; auto. apply (bucket_unique (aget gp) ng h i p); auto; try lia.
            + left. split; auto. exists p, j. splits; auto; lia.
            + left. split; auto. exists q, j. splits; auto; lia.
          - intros [(Hn & q & j & Hq & Hj & Ej & Hpq)|(-> & Hn & Es)]; (split; [auto|]).
            + exists q, j. splits; auto; lia.
            + exists p, e. fold r. splits; auto; lia. }
        destruct (Nat.eqb_spec inv.[Li.[e]] i) as [Es|Es].
        -- wp1. split; auto. split; auto. intros s h Hs' Hh. rewrite X3, ST by auto. split; auto. intros [|(-> & Hn & E2)]; auto. congruence.
        -- wp1. wp1; [lia|]. wp1; [lia|]. destruct (X2 _ Hs) as (Y1 & Y2). split; [now rewrite upd_length|]. split.
           ++ intros s Hs'. rewrite aget_upd by lia. destruct (Nat.eqb_spec s inv.[Li.[e]]) as [->|]; [|auto]. split.
              ** apply sorted_le_snoc; auto.
              ** intros h Hh. apply in_app_iff in Hh. destruct Hh as [|[<-|[]]]; auto.
           ++ intros s h Hs' Hh. rewrite aget_upd by lia. rewrite ST by auto. destruct (Nat.eqb_spec s inv.[Li.[e]]) as [->|Hn].
              ** rewrite in_app_iff, X3 by auto. simpl. split; [intros [|[<-|[]]]; auto|intros [|(-> & Hn & _)]; auto].
              ** rewrite X3 by auto. split; auto. intros [|(_ & _ & E)]; auto. congruence.
      * intros D'' HD''. apply (HX (Lp.[S r] - 1)); auto.
    + intros D' (X1 & X2 & X3). split; auto. split; auto. intros s Hs. destruct (X2 s Hs) as (Y1 & Y2). split; auto. intros h Hh. specialize (Y2 h Hh). lia.
  - intros D (D1 & D2 & D3). split; auto. intros s Hs. destruct (D2 s Hs) as (Y1 & Y2). split; auto. intros h. split.
    + intros Hh. pose proof (Y2 h Hh) as Hhn. apply D3 in Hh; auto. destruct Hh as (Hn & q & j & Hq & Hj & Ej & _).
      unfold quotient. splits; auto. pose proof (gp_le n ng gp gs GP HLg HLs (S h) ltac:(lia)). pose proof (Gb q ltac:(lia)) as Hr. exists Li.[j], gs.[q].
      assert (Hc : Li.[j] < n). { apply W5. assert (Lp.[S gs.[q]] <= Lp.[n]) by (apply (mono_le (aget Lp) n); auto; lia). lia. }
      splits; [rewrite <- Ej; now apply inv_in|exists q; auto|]. split; auto. exists j. auto.
    + intros (_ & Hh & Hn & u & v & Hu & (q & Hq & Ev) & (Hv & j & Hj & Ej)). apply D3; auto. split; auto. exists q, j.
      pose proof (gp_le n ng gp gs GP HLg HLs (S h) ltac:(lia)).
      rewrite Ev, Ej. splits; auto; lia.
Qed.
End Dep.

Lemma pack_group_dag_wp n ng D : ng <= n -> length D = ng ->
  wp (pack_group_dag n ng D) (fun r => let '(gv, gedg) := r in let F := fun h => S (length (uniq D.[h])) in
    length gv = S n /\ gv.[ng] <= length gedg /\ (forall h, h <= ng -> gv.[h] = sum_r 0 h F) /\
    forall h j, h < ng -> j < F h -> gedg.[gv.[h] + j] = (h :: uniq D.[h]).[j]).
Proof.
  intros Hn HD. unfold pack_group_dag. wp1. set (F := fun h => S (length (uniq D.[h]))).
  assert (HF : sum_r 0 ng F <= list_sum (map (@length nat) (map uniq D)) + n).
  { rewrite list_sum_aget, map_length, HD.
    assert (E1 : sum_r 0 ng F = sum_r 0 ng (fun h => length (map uniq D).[h]) + sum_r 0 ng (fun _ => 1)).
    { rewrite <- sum_r_add. apply sum_r_ext. intros i Hi. rewrite aget_map by lia. unfold F. lia. }
    rewrite sum_r_const in E1. lia. }
  set (N := list_sum (map (@length nat) (map uniq D)) + n) in *.
  assert (HM : forall a b, a <= b -> b <= ng -> sum_r 0 a F <= sum_r 0 b F).
  { intros a b Hab Hb. rewrite (sum_r_split 0 a b) by lia. lia. }
  apply (wp_for (fun g st => let '(p, s, e) := st in length p = n + 1 /\ length s = N /\
     e = sum_r 0 g F /\ (forall h, h < g -> p.[h] = sum_r 0 h F) /\
     (forall h j, h < g -> j < F h -> s.[sum_r 0 h F + j] = (h :: uniq D.[h]).[j]))); [lia| | |].
  - rewrite !repeat_length. splits; auto; try lia; intros; lia.
  - intros g [[p s] e] Hg (Lp & Ls & Ee & Hp & Hs).
    assert (HSg : sum_r 0 (S g) F = sum_r 0 g F + F g) by (apply sum_r_S; lia).
    pose proof (HM (S g) ng ltac:(lia) ltac:(lia)) as Hle. assert (F g = S (length (uniq D.[g]))) as HFg by reflexivity.
    wp1. wp1; [lia|]. wp1. wp1; [lia|]. wp1. wp1; [rewrite map_length; lia|]. rewrite aget_map by lia. wp1.
    apply (wp_foreach (fun pre st => let '(s', e') := st in length s' = N /\ e' = sum_r 0 g F + S (length pre) /\
       (forall h j, h < g -> j < F h -> s'.[sum_r 0 h F + j] = (h :: uniq D.[h]).[j]) /\
       (forall j, j < S (length pre) -> s'.[sum_r 0 g F + j] = (g :: pre).[j]))).
    + rewrite upd_length. splits; auto.
      * simpl. lia.
      * intros h j Hh Hj. rewrite aget_upd_ne; auto. pose proof (HM (S h) g ltac:(lia) ltac:(lia)) as Q1. rewrite sum_r_S in Q1 by lia. lia.
      * intros j Hj. simpl in Hj. assert (j = 0) by lia. subst j. rewrite <- Ee, Nat.add_0_r, aget_upd_eq by lia. reflexivity.
    + intros pre x post [s' e'] El (L' & E' & H1 & H2).
      assert (length (uniq D.[g]) = length pre + S (length post)) as Hlen by (rewrite El, app_length; reflexivity).
      wp1. wp1; [lia|]. wp1. rewrite upd_length, app_length. simpl. splits; auto; try lia.
      * intros h j Hh Hj. rewrite aget_upd_ne; auto. pose proof (HM (S h) g ltac:(lia) ltac:(lia)) as Q1. rewrite sum_r_S in Q1 by lia. lia.
      * intros j Hj. rewrite aget_upd by lia. change (g :: pre ++ [x]) with ((g :: pre) ++ [x]). destruct (Nat.eqb_spec (sum_r 0 g F + j) e') as [E|E].
        { replace j with (length (g :: pre)) by (simpl; lia). now rewrite aget_app_last. }
        rewrite aget_app1 by (simpl; lia). apply H2. lia.
    + intros [s' e'] (L' & E' & H1 & H2). wp1. rewrite upd_length. splits; auto; try lia.
      * intros h Hh. rewrite aget_upd by lia. destruct (Nat.eqb_spec h g) as [->|]; auto. apply Hp. lia.
      * intros h j Hh Hj. destruct (Nat.eq_dec h g) as [->|]; [apply H2; lia|]. apply H1; auto. lia.
  - intros [[p s] e] (Lp & Ls & Ee & Hp & Hs). wp1. wp1; [lia|]. wp1.
    assert (HP : forall g, g <= ng -> (upd p ng e).[g] = sum_r 0 g F).
    { intros g Hg. rewrite aget_upd by lia. destruct (Nat.eqb_spec g ng) as [->|]; auto. apply Hp. lia. }
    cbv zeta. rewrite upd_length. splits; auto; try lia.
    + rewrite HP by lia. lia.
    + intros h j Hh Hj. rewrite HP by lia. apply Hs; auto.
Qed.

(** the packed graph: diagonal first, then exactly the edges of [E], in increasing order *)
Lemma packed_graph n ng D gv gedg (E : nat -> nat -> Prop) : ng <= n -> length D = ng ->
  (forall s, s < ng -> sorted_le D.[s] /\ forall h, In h D.[s] <-> E s h) -> (forall g h, E g h -> g < ng /\ h < ng /\ g <> h) ->
  (let F := fun h => S (length (uniq D.[h])) in
    length gv = S n /\ gv.[ng] <= length gedg /\ (forall h, h <= ng -> gv.[h] = sum_r 0 h F) /\
    forall h j, h < ng -> j < F h -> gedg.[gv.[h] + j] = (h :: uniq D.[h]).[j]) ->
  wf_csc ng gv gedg /\ diag_first ng gv gedg /\ (forall g h, edge ng gv gedg g h <-> E g h) /\
  (forall g k k', g < ng -> S gv.[g] <= k -> k < k' -> k' < gv.[S g] -> gedg.[k] < gedg.[k']).
Proof.
  intros Hn LD HD HE (L1 & L2 & P1 & P2). cbv zeta in *. set (F := fun h => S (length (uniq D.[h]))) in *.
  assert (PS : forall g, g < ng -> gv.[S g] = gv.[g] + S (length (uniq D.[g]))). { intros g Hg. rewrite !P1 by lia. rewrite sum_r_S by lia. reflexivity. }
  assert (HEn : forall g k, g < ng -> gv.[g] <= k < gv.[S g] -> gedg.[k] = (g :: uniq D.[g]).[k - gv.[g]]).
  { intros g k Hg Hk. rewrite PS in Hk by auto. replace k with (gv.[g] + (k - gv.[g])) at 1 by lia. apply P2; auto. lia. }
  assert (HIn : forall g h, g < ng -> (entry gv gedg g h <-> h = g \/ E g h)).
  { intros g h Hg. destruct (HD g Hg) as (S1 & S2). split.
    - intros (k & Hk & <-). rewrite (HEn g) by auto. pose proof (PS g Hg) as PSg.
      destruct (k - gv.[g]) as [|j] eqn:Ej; [left; reflexivity|]. right. apply S2, uniq_In. change ((g :: uniq D.[g]).[S j]) with (uniq D.[g]).[j]. apply aget_In. lia.
    - intros [->|H].
      + exists gv.[g]. pose proof (PS g Hg) as PSg. split; [lia|]. rewrite (HEn g), Nat.sub_diag by (auto; lia). reflexivity.
      + apply S2, uniq_In, In_aget in H. destruct H as (j & Hj & <-). exists (gv.[g] + S j). pose proof (PS g Hg) as PSg.
        split; [lia|]. rewrite (HEn g) by (auto; lia). replace (gv.[g] + S j - gv.[g]) with (S j) by lia. reflexivity. }
  splits.
  - unfold wf_csc. splits; auto; try lia.
    + rewrite P1 by lia. apply sum_r_nil. lia.
    + intros i Hi. rewrite PS by auto. lia.
    + intros k Hk. destruct (bucket_exists (aget gv) ng k) as (g & Hg & Hb); auto.
      { rewrite P1, sum_r_nil by lia. lia. }
      assert (He : entry gv gedg g gedg.[k]) by (exists k; auto). apply HIn in He; auto. destruct He as [->|He]; auto. now apply HE in He.
  - intros u Hu. pose proof (PS u Hu) as PSu. split; [lia|]. split.
    + rewrite (HEn u), Nat.sub_diag by (auto; lia). reflexivity.
    + intros k Hk Ek. rewrite (HEn u) in Ek by (auto; lia). destruct (k - gv.[u]) as [|j] eqn:Ej; [lia|]. exfalso.
      change ((u :: uniq D.[u]).[S j]) with (uniq D.[u]).[j] in Ek.
      assert (Hin : In u D.[u]) by (apply uniq_In; rewrite <- Ek at 1; apply aget_In; lia). apply HD in Hin; auto. apply HE in Hin. lia.
  - intros g h. split.
    + intros (Hg & He & Hn'). apply HIn in He; auto. destruct He as [->|]; auto. lia.
    + intros H. destruct (HE g h H) as (Hg & Hh & Hne). split; auto. split; auto. apply HIn; auto.
  - intros g k k' Hg H1 H2 H3. rewrite !(HEn g) by (auto; lia). pose proof (PS g Hg) as PSg.
    destruct (k - gv.[g]) as [|j] eqn:Ej; [lia|]. destruct (k' - gv.[g]) as [|j'] eqn:Ej'; [lia|].
    change ((g :: uniq D.[g]).[S j]) with (uniq D.[g]).[j]. change ((g :: uniq D.[g]).[S j']) with (uniq D.[g]).[j'].
    apply uniq_sorted; try lia. now apply HD.
Qed.
