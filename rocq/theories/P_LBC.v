(** C42, C43, C44, C73: bin packing, height partitioning and the LBC coarsening. *)
From Verif Require Import Base Lib Lib2 Spec Check M_LevelSet L_LevelSet L_LevelSet2 M_Coarsen M_LBC L_LBC L_LBC3 L_LBC5 L_LBC6 P_Collect.
From Coq Require Import ZifyBool ZifyNat.

(** * C42: bin packing *)

(** Every part ends up in one bin, whole and in order; the other cells are not touched; the cost of a bin is
    its old cost plus the costs of its parts, added in this order.  For every cost type, every
    comparison (NaN included) and every way to sort. *)
Theorem C42_bin_pack : forall (T : Type) (DT : Dflt T) (add : T -> T -> T) ltb int_max sortp parts (inCost : list T) merged outCost bins,
  (forall l, Permutation (sortp l) l) -> 0 < bins -> bins <= length merged -> bins <= length outCost -> length parts <= length inCost ->
  exists merged' outCost' asg, worst_fit_bin_pack add ltb int_max sortp parts inCost merged outCost bins = Ok (merged', outCost') /\
    length merged' = length merged /\ length outCost' = length outCost /\ length asg = bins /\
    Permutation (concat asg) (seq 0 (length parts)) /\
    (forall b, b < bins -> merged'.[b] = merged.[b] ++ concat (map (aget parts) asg.[b])) /\
    (forall b, b < bins -> outCost'.[b] = fold_left add (map (aget inCost) asg.[b]) outCost.[b]) /\
    (forall b, bins <= b -> merged'.[b] = merged.[b] /\ outCost'.[b] = outCost.[b]).
Proof.
  intros T DT add ltb im sp parts ic mg oc bins HS H1 H2 H3 H4.
  assert (G : wp (worst_fit_bin_pack add ltb im sp parts ic mg oc bins) (fun '(mg', oc') => exists asg,
     packed add parts ic mg oc bins mg' oc' asg /\ Permutation (concat asg) (seq 0 (length parts)))).
  { apply (bin_pack_wp add ltb im sp HS parts ic mg oc bins (fun _ => True)); auto.
    - intros oc' c E _ _ _. eapply wp_mono; [apply (find_min_lt add ltb im oc' bins (fun _ => True)); auto; lia|]. auto.
    - intros mg' oc' asg HP Hp _. eauto. }
  apply wp_ok in G. destruct G as [[mg' oc'] [E (asg & (P1 & P2 & P3 & P4 & P5 & P6) & HP)]].
  exists mg', oc', asg. splits; auto.
Qed.
Print Assumptions C42_bin_pack.

(** without bins the first part is stored out of bounds *)
Theorem C42_no_bins : forall (T : Type) (DT : Dflt T) (add : T -> T -> T) ltb int_max sortp parts (inCost : list T) outCost,
  (forall l, Permutation (sortp l) l) -> parts <> [] -> length parts <= length inCost ->
  worst_fit_bin_pack add ltb int_max sortp parts inCost [] outCost 0 = Err OOB.
Proof.
  intros T DT add ltb im sp parts ic oc HS Hne HL.
  assert (G : oob_or (worst_fit_bin_pack add ltb im sp parts ic [] oc 0) (fun _ => False)).
  { unfold worst_fit_bin_pack. oo1. apply (oo_for (fun i pl => length pl = i)); auto; [lia| |].
    - intros j pl Hj E. oo1. oo1. intros _. oo1. oo1. intros _. oo1. rewrite app_length. simpl. lia.
    - intros pl E. pose proof (Permutation_length (HS pl)) as EL. destruct (sp pl) as [|[c p] t]; [destruct parts; simpl in *; [congruence|lia]|].
      cbn [foreach]. oo1. unfold find_min. rewrite for_nil by lia. cbn [bind]. oo1. oo1. intros _. oo1. oo1. intros _. oo1. oo1. simpl. lia. }
  destruct (worst_fit_bin_pack add ltb im sp parts ic [] oc 0); simpl in G; [contradiction|congruence].
Qed.
Print Assumptions C42_no_bins.

(** ** balance, for exact costs *)
Definition INT_MAX : Z := 2147483647.
Definition sumZ (l : list Z) : Z := fold_right Z.add 0%Z l.

Lemma sumZ_app l l' : sumZ (l ++ l') = (sumZ l + sumZ l')%Z.
Proof. induction l; simpl; lia. Qed.
Lemma sumZ_perm l l' : Permutation l l' -> sumZ l = sumZ l'.
Proof. induction 1; simpl; lia. Qed.
Lemma sumZ_nonneg l : (forall x, In x l -> (0 <= x)%Z) -> (0 <= sumZ l)%Z.
Proof. induction l; simpl; intros H; [lia|]. pose proof (H a ltac:(auto)). specialize (IHl ltac:(auto)). lia. Qed.
Lemma fold_left_sum l a : fold_left Z.add l a = (a + sumZ l)%Z.
Proof. revert a. induction l; simpl; intros; [lia|]. rewrite IHl. lia. Qed.

Lemma find_min_Z (cost : list Z) m size (Q : nat -> Prop) : 0 < size -> size <= length cost ->
  (exists i, i < size /\ (cost.[i] < m)%Z) ->
  (forall b, b < size -> (forall i, i < size -> (cost.[b] <= cost.[i])%Z) -> Q b) -> wp (find_min Z.ltb m cost size) Q.
Proof.
  intros H0 HL (w & Hw & Hwm) HQ. unfold find_min. wp1.
  apply (wp_for (fun i '(mi, b) => (forall j, j < i -> (mi <= cost.[j])%Z) /\ (mi <= m)%Z /\ ((mi < m)%Z -> b < size /\ mi = cost.[b]))).
  - lia.
  - splits; intros; lia.
  - intros i [mi b] Hi (I1 & I2 & I3). wp1. wp1; [lia|]. destruct (Z.ltb_spec cost.[i] mi) as [L|L]; wp1.
    + splits; try lia. intros j Hj. destruct (Nat.eq_dec j i) as [->|]; [lia|]. specialize (I1 j ltac:(lia)). lia.
    + splits; auto. intros j Hj. destruct (Nat.eq_dec j i) as [->|]; [lia|]. apply I1. lia.
  - intros [mi b] (I1 & I2 & I3). wp1. pose proof (I1 w Hw). destruct (I3 ltac:(lia)) as [Hb Em]. apply HQ; auto.
    intros i Hi. specialize (I1 i Hi). lia.
Qed.

Lemma below_avg (m : Z) (o : list Z) bins : bins <= length o -> (sumZ (firstn bins o) < m * Z.of_nat bins)%Z -> exists i, i < bins /\ (o.[i] < m)%Z.
Proof.
  revert o. induction bins as [|b IH]; intros o Hl L; [simpl in L; lia|]. destruct o as [|x t]; [simpl in Hl; lia|].
  cbn [firstn sumZ fold_right] in L. fold (sumZ (firstn b t)) in L.
  destruct (Z.ltb_spec x m) as [Lx|Lx]; [exists 0; split; [lia|auto]|]. destruct (IH t) as (i & Hi & Hx); [simpl in Hl; lia|lia|].
  exists (S i). split; [lia|auto].
Qed.

(** If no cost exceeds [M] and the bins start at most [M] apart, they end at most [M] apart, as long as
    the average cost of a bin stays below INT_MAX. *)
Theorem C42_balance : forall sortp parts (inCost : list Z) merged outCost bins (M : Z),
  (forall l, Permutation (sortp l) l) -> 0 < bins -> bins <= length merged -> bins <= length outCost -> length parts <= length inCost ->
  (forall i, i < length parts -> (0 <= inCost.[i] <= M)%Z) ->
  (forall b b', b < bins -> b' < bins -> (outCost.[b] <= outCost.[b'] + M)%Z) ->
  (sumZ (firstn bins outCost) + sumZ (firstn (length parts) inCost) < INT_MAX * Z.of_nat bins)%Z ->
  exists merged' outCost', worst_fit_bin_pack Z.add Z.ltb INT_MAX sortp parts inCost merged outCost bins = Ok (merged', outCost') /\
    forall b b', b < bins -> b' < bins -> (outCost'.[b] <= outCost'.[b'] + M)%Z.
Proof.
  intros sp parts ic mg oc bins M HS H1 H2 H3 H4 HM HB HT.
  assert (G : wp (worst_fit_bin_pack Z.add Z.ltb INT_MAX sp parts ic mg oc bins) (fun '(_, oc') =>
     forall b b', b < bins -> b' < bins -> (oc'.[b] <= oc'.[b'] + M)%Z)).
  { apply (bin_pack_wp Z.add Z.ltb INT_MAX sp HS parts ic mg oc bins
      (fun oc' => forall b b', b < bins -> b' < bins -> (oc'.[b] <= oc'.[b'] + M)%Z)); auto.
    intros oc' c EL Hc HI (pre & post & HP & asg & Ha & La & Hoc).
    assert (HIn : forall x, In x (firstn (length parts) ic) -> (0 <= x <= M)%Z).
    { intros x Hx. apply In_aget in Hx. destruct Hx as (i & Hi & <-). rewrite firstn_length in Hi. rewrite aget_firstn by lia. apply HM. lia. }
    apply find_min_Z; auto; try lia.
    - destruct (Z.ltb_spec (sumZ (firstn bins oc')) (INT_MAX * Z.of_nat bins)) as [L|L].
      + apply below_avg; auto. lia.
      + exfalso. rewrite (sumZ_perm _ _ HP), sumZ_app in HT. cbn [sumZ fold_right] in HT. fold (sumZ post) in HT.
        assert (0 <= sumZ post)%Z.
        { apply sumZ_nonneg. intros x Hx. apply HIn. rewrite HP. apply in_app_iff. right. now right. }
        pose proof (HIn c Hc). rewrite <- (sumZ_perm _ _ Ha) in HT.
        assert (Es : sumZ (firstn bins oc') = (sumZ (firstn bins oc) + sumZ (map (aget ic) (concat asg)))%Z).
        { clear - Hoc La EL H3. subst bins. assert (Hl : length asg <= length oc') by lia. revert oc oc' EL H3 Hl Hoc.
          induction asg as [|h t IH]; intros [|x o] [|x' o'] EL H3 Hl Hoc; simpl in *; try lia.
          fold (sumZ (firstn (length t) o)) (sumZ (firstn (length t) o')). rewrite map_app, sumZ_app.
          pose proof (Hoc 0 ltac:(lia)) as E0. rewrite !aget_cons_0, fold_left_sum in E0.
          rewrite (IH o o') by (try lia; intros b Hb; specialize (Hoc (S b) ltac:(lia)); now rewrite !aget_cons_S in Hoc). lia. }
        lia.
    - intros b Hb Hmin b1 b2 Hb1 Hb2. pose proof (HIn c Hc) as Hcc. rewrite !aget_upd by lia. pose proof (HI b1 b2 Hb1 Hb2).
      pose proof (HI b1 b Hb1 Hb). pose proof (Hmin b2 Hb2). destruct (Nat.eqb_spec b1 b), (Nat.eqb_spec b2 b); subst; lia. }
  apply wp_ok in G. destruct G as [[mg' oc'] [E HQ]]. eauto.
Qed.
Print Assumptions C42_balance.

(** the hypotheses can be met and the result is not trivial: four parts on two bins *)
Fixpoint ins_desc (x : Z * list nat) (l : list (Z * list nat)) : list (Z * list nat) :=
  match l with [] => [x] | y :: t => if (fst y <? fst x)%Z then x :: y :: t else y :: ins_desc x t end.
Definition sort_desc (l : list (Z * list nat)) : list (Z * list nat) := fold_left (fun a x => ins_desc x a) l [].

Lemma ins_desc_perm x l : Permutation (ins_desc x l) (x :: l).
Proof. induction l as [|y t IH]; simpl; auto. destruct (fst y <? fst x)%Z; auto. rewrite IH. apply perm_swap. Qed.
Lemma sort_desc_perm l : Permutation (sort_desc l) l.
Proof.
  unfold sort_desc. assert (G : forall l a, Permutation (fold_left (fun a x => ins_desc x a) l a) (a ++ l)).
  { clear. induction l as [|x l IH]; intros a; simpl; [now rewrite app_nil_r|]. rewrite IH. rewrite ins_desc_perm. simpl. apply Permutation_middle. }
  apply (G l []).
Qed.

Example C42_run : worst_fit_bin_pack Z.add Z.ltb INT_MAX sort_desc [[0;1];[2];[3;4;5];[6]] [2;1;3;1]%Z [[];[]] [0;0]%Z 2
  = Ok ([[3;4;5;6]; [0;1;2]], [4;3]%Z).
Proof. vm_compute. reflexivity. Qed.
Example C42_balance_hyps : forall i, i < 4 -> (0 <= aget [2;1;3;1]%Z i <= 3)%Z.
Proof. intros i Hi. do 4 (destruct i as [|i]; [vm_compute; split; discriminate|]). lia. Qed.

(** Above INT_MAX the minimum is not found: the bins fill one-sidedly. *)
Theorem C42_large_costs_refuted : ~ (forall sortp parts (inCost : list Z) merged outCost bins (M : Z),
  (forall l, Permutation (sortp l) l) -> 0 < bins -> bins <= length merged -> bins <= length outCost -> length parts <= length inCost ->
  (forall i, i < length parts -> (0 <= inCost.[i] <= M)%Z) ->
  (forall b b', b < bins -> b' < bins -> (outCost.[b] <= outCost.[b'] + M)%Z) ->
  exists merged' outCost', worst_fit_bin_pack Z.add Z.ltb INT_MAX sortp parts inCost merged outCost bins = Ok (merged', outCost') /\
    forall b b', b < bins -> b' < bins -> (outCost'.[b] <= outCost'.[b'] + M)%Z).
Proof.
  intros H. destruct (H sort_desc [[0];[1];[2];[3]] (repeat 2147483648 4)%Z [[];[]] [0;0]%Z 2 2147483648%Z) as (m & o & E & HB); try (simpl; lia).
  - apply sort_desc_perm.
  - intros i Hi. rewrite aget_repeat by (simpl in Hi; lia). lia.
  - intros b b' Hb Hb'. destruct b as [|[|]], b' as [|[|]]; try lia; vm_compute; discriminate.
  - vm_compute in E. injection E as <- <-. specialize (HB 0 1 ltac:(lia) ltac:(lia)). vm_compute in HB. auto.
Qed.
Print Assumptions C42_large_costs_refuted.

(** * C43: height partitioning *)

(** number of nodes of level [l] *)
Definition width (levelPtr : list nat) (l : nat) : nat := levelPtr.[S l] - levelPtr.[l].
(** the number of threads the code aims at *)
Definition target (innerParts : Z) : nat := if (1 <? innerParts)%Z then Z.to_nat innerParts else 6.

(** The cuts start at 0 and increase strictly; all but the last lie on levels, the last one is at or past the end;
    the first slab has minLevelDist levels and every other but the last has divRate levels; a slab gets between 1
    and [target] parts and the last slab gets one. *)
Theorem C43_cuts : forall levelNo levelPtr height innerParts minLevelDist divRate p2l,
  0 < levelNo -> levelNo < length levelPtr -> levelNo < length p2l -> levelNo <= S height -> (1 <= minLevelDist)%Z -> (1 <= divRate)%Z ->
  exists k sizes cuts, height_partitioning_DAG_trng levelNo levelPtr height innerParts minLevelDist divRate p2l = Ok (k, (sizes, cuts)) /\
    1 <= k <= levelNo /\ length sizes = k /\ length cuts = length p2l /\ cuts.[0] = 0 /\
    (forall j, j < k -> cuts.[j] < cuts.[S j] /\ cuts.[j] < levelNo) /\
    (if (Z.of_nat levelNo <=? minLevelDist)%Z then k = 1 /\ cuts.[k] = levelNo else 2 <= k /\ cuts.[k] = S height) /\
    (forall j, 0 < j < k -> Z.of_nat cuts.[j] = (minLevelDist + Z.of_nat (j - 1) * divRate)%Z) /\
    (forall j, j < k -> 1 <= sizes.[j] <= target innerParts) /\ sizes.[k - 1] = 1 /\
    (forall j, 0 < j < k - 1 -> sizes.[j] = Nat.max 1 (Nat.min (target innerParts) (width levelPtr (cuts.[S j] - 1)))) /\
    (1 < k -> sizes.[0] = Nat.max 1 (Nat.min (target innerParts) (width levelPtr (cuts.[1] - 1) / 2))).
Proof.
  intros levelNo lp H ip md dr p2l H1 H2 H3 H4 H5 H6.
  assert (G : wp (height_partitioning_DAG_trng levelNo lp H ip md dr p2l) (fun '(k, (sizes, cuts)) =>
    1 <= k <= levelNo /\ length sizes = k /\ length cuts = length p2l /\ cuts.[0] = 0 /\
    (forall j, j < k -> cuts.[j] < cuts.[S j] /\ cuts.[j] < levelNo) /\
    (if (Z.of_nat levelNo <=? md)%Z then k = 1 /\ cuts.[k] = levelNo else 2 <= k /\ cuts.[k] = S H) /\
    (forall j, 0 < j < k -> Z.of_nat cuts.[j] = (md + Z.of_nat (j - 1) * dr)%Z) /\
    (forall j, j < k -> 1 <= sizes.[j] <= target ip) /\ sizes.[k - 1] = 1 /\
    (forall j, 0 < j < k - 1 -> sizes.[j] = Nat.max 1 (Nat.min (target ip) (width lp (cuts.[S j] - 1)))) /\
    (1 < k -> sizes.[0] = Nat.max 1 (Nat.min (target ip) (width lp (cuts.[1] - 1) / 2))))).
  { apply height_wp; auto. intros k sizes cuts last P1 P2 P3 P4 P5 P6 P7 P8 P9 P10 P11 P12 P13 P14.
    assert (TE : target ip = inner_bound ip) by reflexivity. pose proof (inner_bound_pos ip) as TP.
    assert (SZ : forall w t, 1 <= t -> inner_size w t = Nat.max 1 (Nat.min t w)).
    { intros w t Ht. unfold inner_size. destruct (Nat.leb_spec t w), (Nat.ltb_spec 1 w); lia. }
    assert (WD : forall j, 0 < j <= k -> lp.[cuts.[j]] - lp.[cuts.[j] - 1] = width lp (cuts.[j] - 1)).
    { intros j Hj. unfold width. specialize (P5 (j - 1) ltac:(lia)). replace (S (j - 1)) with j in P5 by lia.
      replace (S (cuts.[j] - 1)) with cuts.[j] by lia. auto. }
    do 5 (split; [auto|]). split; [|split; [auto|split; [|split; [|split]]]].
    - destruct (Z.leb_spec (Z.of_nat levelNo) md); lia.
    - intros j Hj. rewrite P14, TE by auto. destruct (j =? k - 1); [lia|]. cbv zeta. now apply inner_size_bounds.
    - rewrite P14 by lia. now rewrite Nat.eqb_refl.
    - intros j Hj. rewrite P14 by lia. replace (j =? k - 1) with false by lia. replace (j =? 0) with false by lia. cbv zeta. rewrite SZ, TE, WD by lia. auto.
    - intros Hk. rewrite P14 by lia. replace (0 =? k - 1) with false by lia. cbn [Nat.eqb]. cbv zeta. rewrite SZ, TE, WD by lia. auto. }
  apply wp_ok in G. destruct G as [[k [sizes cuts]] [E HQ]]. exists k, sizes, cuts. split; auto.
Qed.
Print Assumptions C43_cuts.

Example C43_run : height_partitioning_DAG_trng 7 [0;8;14;18;22;25;26;28] 7 4 2 2 (repeat 9 8) = Ok (4, ([3; 4; 1; 1], [0; 2; 4; 6; 8; 9; 9; 9]))
  /\ height_partitioning_DAG_trng 7 [0;8;14;18;22;25;26;28] 7 4 2 1 (repeat 9 8) = Ok (6, ([3; 4; 4; 3; 1; 1], [0; 2; 3; 4; 5; 6; 8; 9])).
Proof. split; vm_compute; reflexivity. Qed.

(** ** parameters for which the function always leaves its arrays *)

Lemma oo_rdZ {A} `{Dflt A} (l : list A) i (Q : A -> Prop) : ((0 <= i < Z.of_nat (length l))%Z -> Q l.[Z.to_nat i]) -> oob_or (rdZ l i) Q.
Proof.
  intros H0. unfold rdZ. destruct (Z.ltb_spec i 0); [reflexivity|]. apply oo_rd. intros. apply H0. lia.
Qed.

Lemma last_wide_wide lp k i : k < length lp -> i < k -> lp.[S i] <> S lp.[i] ->
  wp (last_wide lp k) (fun r => i < r <= k).
Proof.
  intros HL Hi Hw. apply last_wide_wp; auto. intros r Hr Hone _. split; auto.
  destruct (le_lt_dec r i); auto. exfalso. apply Hw, Hone. lia.
Qed.

(** Some level that the cuts should reach is wide, and the step is not positive: with step 0 or less the code runs off its arrays.
    These are the parameters (0,0) that lbc_config chooses for matrices with fewer than ten entries per column. *)
Theorem C43_no_step : forall levelNo levelPtr height innerParts minLevelDist divRate p2l i,
  levelNo < length levelPtr -> (minLevelDist < Z.of_nat levelNo)%Z -> (divRate <= 0)%Z ->
  i < levelNo -> width levelPtr i <> 1 -> (minLevelDist + divRate <= Z.of_nat i)%Z -> (forall l, l < levelNo -> levelPtr.[l] <= levelPtr.[S l]) ->
  height_partitioning_DAG_trng levelNo levelPtr height innerParts minLevelDist divRate p2l = Err OOB.
Proof.
  intros levelNo lp H ip md dr p2l i HL Hmd Hdr Hi Hw Hlt Hm.
  assert (G : oob_or (height_partitioning_DAG_trng levelNo lp H ip md dr p2l) (fun _ => False)).
  { unfold height_partitioning_DAG_trng. oo1. apply oo_wp. eapply wp_mono; [apply (last_wide_wide lp levelNo i); auto|].
    { intros E. apply Hw. unfold width. lia. }
    intros last [Hl1 Hl2]. replace (Z.of_nat levelNo <=? md)%Z with false by lia.
    oo1. apply (oo_for (fun _ accu => length accu = levelNo)); [lia|apply repeat_length| |].
    { intros j a Hj E. oo1. oo1. intros _. oo1. oo1. intros _. oo1. intros _. now rewrite upd_length. }
    intros accu LA. set (nt := if (1 <? ip)%Z then Z.to_nat ip else 6). oo1. oo1. intros Hp0.
    oo1. apply (oo_mono _ (fun '(cnt, sizes, p) => length p = length p2l)).
    - destruct ((0 <? md)%Z && (md <? Z.of_nat levelNo)%Z).
      + oo1. oo1. intros _. oo1. apply oo_rdZ. intros _. oo1. now rewrite !upd_length.
      + oo1. now rewrite upd_length.
    - intros [[cnt sizes] p] LP. oo1.
      apply (oo_while (fun '(tmp, cnt, sizes, p) => (tmp < Z.of_nat last)%Z /\ length p = length p2l) (fun '(tmp, cnt, sizes, p) => length p2l - cnt)).
      + split; auto. lia.
      + lia.
      + intros [[[tmp c] sz] q] (I1 & I2). oo1. replace (tmp <? Z.of_nat last)%Z with true by lia.
        oo1. apply oo_rdZ. intros _. oo1. oo1. intros Hc. oo1. rewrite upd_length. splits; auto; lia. }
  destruct (height_partitioning_DAG_trng levelNo lp H ip md dr p2l); simpl in G; [contradiction|congruence].
Qed.
Print Assumptions C43_no_step.

Example C43_no_step_run : height_partitioning_DAG_trng 3 [0;2;4;5] 3 4 0 0 (repeat 0 4) = Err OOB.
Proof. vm_compute. reflexivity. Qed.

(** no levels: partition2Level has one cell, the second one is written *)
Theorem C43_no_levels : forall levelPtr height innerParts minLevelDist divRate x,
  height_partitioning_DAG_trng 0 levelPtr height innerParts minLevelDist divRate [x] = Err OOB.
Proof.
  intros lp H ip md dr x. unfold height_partitioning_DAG_trng. cbn [last_wide bind].
  destruct (Z.leb_spec (Z.of_nat 0) md) as [L|L]; [reflexivity|]. rewrite for_nil by lia. cbn [bind wr length Nat.ltb Nat.leb].
  replace ((0 <? md)%Z && (md <? Z.of_nat 0)%Z) with false by lia. cbn [bind].
  cbn [while_ bind upd length]. destruct (Z.ltb_spec (md + dr) (Z.of_nat 0)) as [L2|L2]; cbn [bind].
  - unfold rdZ. replace (md + dr - 1 <? 0)%Z with true by lia. reflexivity.
  - reflexivity.
Qed.
Print Assumptions C43_no_levels.

(** * C44: the coarsening *)

(** For every cost type, comparison and sort, every graph with one diagonal entry per column that is neither
    cyclic nor a single chain: a schedule of every node exactly once with every dependence ordered, at most
    [target] parts per level and one in the last. *)
Theorem C44_lbc_valid : forall (T : Type) (DT : Dflt T) (zero : T) add ltb int_max sortp n Lp Li innerParts minLevelDist divRate nodeCost,
  (forall l, Permutation (sortp l) l) -> wf_csc n Lp Li -> one_diag n Lp Li -> 0 < n ->
  ~ has_cycle (edge n Lp Li) -> ~ visits_all n (edge n Lp Li) ->
  innerParts <> 0%Z -> (1 <= minLevelDist)%Z -> (1 <= divRate)%Z -> n <= length nodeCost ->
  exists k levelPtr partPtr nodePtr,
    get_coarse_Level_set_DAG_CSC03 zero add ltb int_max sortp n Lp Li innerParts minLevelDist divRate nodeCost = Ok (k, (levelPtr, partPtr, nodePtr)) /\
    valid_schedule n (edge n Lp Li) k levelPtr partPtr nodePtr /\ 1 <= k < n /\
    length levelPtr = n + 1 /\ length partPtr = n /\ length nodePtr = n /\
    (forall l, l < k -> levelPtr.[S l] - levelPtr.[l] <= target innerParts) /\ levelPtr.[k] - levelPtr.[k - 1] <= 1.
Proof.
  intros T DT zero add ltb im sp n Lp Li ip md dr nc HS W D1 Hn HC HV Hip Hmd Hdr HN.
  assert (G : wp (get_coarse_Level_set_DAG_CSC03 zero add ltb im sp n Lp Li ip md dr nc) (fun '(k, (levelPtr, partPtr, nodePtr)) =>
    valid_schedule n (edge n Lp Li) k levelPtr partPtr nodePtr /\ 1 <= k < n /\
    length levelPtr = n + 1 /\ length partPtr = n /\ length nodePtr = n /\
    (forall l, l < k -> levelPtr.[S l] - levelPtr.[l] <= target ip) /\ levelPtr.[k] - levelPtr.[k - 1] <= 1)).
  { apply (lbc_wp zero add ltb im sp HS); auto. intros. do 6 (split; [auto|]); auto. }
  apply wp_ok in G. destruct G as [[k [[lp pp] np]] [E HQ]]. exists k, lp, pp, np. split; auto.
Qed.
Print Assumptions C44_lbc_valid.

(** ** inputs for which it fails *)

(** a cycle or a single chain: the number of levels is -1, the array of this size cannot be allocated *)
Theorem C44_chain_throws : forall (T : Type) (DT : Dflt T) (zero : T) add ltb int_max sortp n Lp Li innerParts minLevelDist divRate nodeCost,
  wf_csc n Lp Li -> one_diag n Lp Li -> 0 < n -> has_cycle (edge n Lp Li) \/ visits_all n (edge n Lp Li) ->
  get_coarse_Level_set_DAG_CSC03 zero add ltb int_max sortp n Lp Li innerParts minLevelDist divRate nodeCost = Err Throw.
Proof. intros. now apply lbc_throw. Qed.
Print Assumptions C44_chain_throws.

(** the empty graph *)
Theorem C44_empty_oob : forall (T : Type) (DT : Dflt T) (zero : T) add ltb int_max sortp Lp Li innerParts minLevelDist divRate nodeCost,
  wf_csc 0 Lp Li -> get_coarse_Level_set_DAG_CSC03 zero add ltb int_max sortp 0 Lp Li innerParts minLevelDist divRate nodeCost = Err OOB.
Proof.
  intros T DT zero add ltb im sp Lp Li ip md dr nc W. unfold get_coarse_Level_set_DAG_CSC03, build_levelSet_CSC_alloc.
  destruct (inplace_total 0 Lp Li (repeat 0 (0 + 1)) (repeat 0 0) W) as (lv & lp & ls & n2 & Ei & Hl); try (simpl; lia).
  { intros v Hv. lia. } { reflexivity. }
  rewrite Ei. cbn [bind]. destruct Hl as [(_ & Hn & _)|(Hlv & X & _)]; [lia|]. replace (lv <? 0)%Z with false by lia.
  destruct X as (_ & [H|[_ H]] & _); [lia|]. rewrite H. rewrite !for_nil by lia. cbn [bind Nat.add repeat].
  now rewrite C43_no_levels.
Qed.
Print Assumptions C44_empty_oob.

(** a graph that is not a chain has a level with several nodes *)
Lemma wide_level n Lp Li levelNo lp ls n2l : levels_exact n Lp Li levelNo lp ls n2l -> 0 < n -> wf_csc n Lp Li ->
  exists i, i < levelNo /\ width lp i <> 1.
Proof.
  intros X Hn W. pose proof X as ((P0 & Pm & Pk & _) & XN & _).
  destruct (forallb (fun i => width lp i =? 1) (seq 0 levelNo)) eqn:E.
  - exfalso. rewrite forallb_forall in E. assert (G : forall i, i <= levelNo -> lp.[i] = i).
    { induction i as [|i IH]; intros Hi; auto. specialize (E i ltac:(apply in_seq; lia)). unfold width in E. rewrite IH in E by lia. specialize (Pm i ltac:(lia)). lia. }
    rewrite G in Pk by lia. lia.
  - assert (G : forall l, forallb (fun i => width lp i =? 1) l = false -> exists i, In i l /\ width lp i <> 1).
    { induction l as [|x l IH]; simpl; [discriminate|]. destruct (Nat.eqb_spec (width lp x) 1) as [Ex|Ex]; simpl; intros H; [|eauto].
      destruct (IH H) as (i & Hi & Hw). eauto. }
    apply G in E. destruct E as (i & Hi & E). apply in_seq in Hi. exists i. split; [lia|auto].
Qed.

(** a step of 0 or less: partition2Level or accuSlackGroups is left *)
Theorem C44_no_step_oob : forall (T : Type) (DT : Dflt T) (zero : T) add ltb int_max sortp n Lp Li innerParts divRate nodeCost,
  wf_csc n Lp Li -> one_diag n Lp Li -> 0 < n -> ~ has_cycle (edge n Lp Li) -> ~ visits_all n (edge n Lp Li) -> (divRate <= 0)%Z ->
  get_coarse_Level_set_DAG_CSC03 zero add ltb int_max sortp n Lp Li innerParts 0 divRate nodeCost = Err OOB.
Proof.
  intros T DT zero add ltb im sp n Lp Li ip dr nc W D1 Hn Hcy Hva Hdr. unfold get_coarse_Level_set_DAG_CSC03, build_levelSet_CSC_alloc.
  destruct (inplace_total n Lp Li (repeat 0 (n + 1)) (repeat 0 n) W D1) as (lv & lp & ls & n2 & Ei & Hl).
  { rewrite repeat_length. lia. } { rewrite repeat_length. lia. } { rewrite aget_repeat by lia. auto. }
  pose proof (inplace_lens n Lp Li (repeat 0 (n + 1)) (repeat 0 n) _ Ei) as HL. cbv beta iota in HL. rewrite !repeat_length in HL.
  destruct HL as [HL1 HL2]. rewrite Ei. cbn [bind].
  destruct Hl as [(_ & _ & [C|C])|(Hlv & X & _)]; [contradiction|contradiction|].
  replace (lv <? 0)%Z with false by lia. set (levelNo := Z.to_nat lv) in *.
  pose proof X as (XP & XN & _ & XC & _). specialize (XC Hn). destruct XC as [XC _].
  destruct (wide_level n Lp Li levelNo lp ls n2 X Hn W) as (i & Hi & Hw).
  assert (EH : forall p2l, height_partitioning_DAG_trng levelNo lp levelNo ip 0 dr p2l = Err OOB).
  { intros p2l. apply (C43_no_step _ _ _ _ _ _ _ i); auto; try lia. apply XP. }
  pose proof (lbc_n2l_wp n levelNo lp ls (fun _ => True) ltac:(lia) ltac:(lia) XP (fun _ _ _ => I)) as G1. apply wp_ok in G1. destruct G1 as (n2l & E1 & _).
  rewrite E1. cbn [bind].
  pose proof (lbc_deg_wp n Lp Li (fun _ => True) W (fun _ _ _ => I)) as G2. apply wp_ok in G2. destruct G2 as (deg & E2 & _).
  rewrite E2. cbn [bind]. now rewrite EH.
Qed.
Print Assumptions C44_no_step_oob.

(** the parameters lbc_config picks for fewer than ten entries per column *)
Theorem C44_config_oob : forall (T : Type) (DT : Dflt T) (zero : T) add ltb int_max sortp n Lp Li threads nodeCost,
  wf_csc n Lp Li -> one_diag n Lp Li -> 0 < n -> ~ has_cycle (edge n Lp Li) -> ~ visits_all n (edge n Lp Li) -> Lp.[n] < 10 * n ->
  exists lp cp ic bp, lbc_config n Lp.[n] threads = Ok (lp, cp, ic, bp) /\
    get_coarse_Level_set_DAG_CSC03 zero add ltb int_max sortp n Lp Li (Z.of_nat lp) (Z.of_nat cp) (Z.of_nat ic) nodeCost = Err OOB.
Proof.
  intros T DT zero add ltb im sp n Lp Li th nc W D1 Hn Hcy Hva Hlt. exists th, 0, 0, false. split.
  - unfold lbc_config. replace (n =? 0) with false by lia. assert (Lp.[n] / n < 10) by (apply Nat.div_lt_upper_bound; lia).
    now replace (Lp.[n] / n <? 10) with true by lia.
  - apply C44_no_step_oob; auto. simpl. lia.
Qed.
Print Assumptions C44_config_oob.

(** no inner parts: integer division by zero *)
Ltac step_in E :=
  match type of E with
  | bind ?m _ = Ok _ => let r := fresh "r" in let Er := fresh "Er" in destruct m as [r|] eqn:Er; cbn [bind] in E |- *; [|discriminate E]; clear Er
  | (let '(_, _) := ?r in _) = _ => destruct r
  end.

Lemma slab_div (T : Type) (add : T -> T -> T) ltb im sp n Lp Li lp ls n2l nc h sizes p2l l s s' :
  lbc_slab add ltb im sp n Lp Li lp ls n2l nc h 1 sizes p2l l s = Ok s' ->
  lbc_slab add ltb im sp n Lp Li lp ls n2l nc h 0 sizes p2l l s = Err DivZero.
Proof. unfold lbc_slab. intros E. do 4 step_in E. do 4 step_in E. do 10 try step_in E. reflexivity. Qed.

Theorem C44_no_parts_divides : forall (T : Type) (DT : Dflt T) (zero : T) add ltb int_max sortp n Lp Li minLevelDist divRate nodeCost,
  (forall l, Permutation (sortp l) l) -> wf_csc n Lp Li -> one_diag n Lp Li -> 0 < n ->
  ~ has_cycle (edge n Lp Li) -> ~ visits_all n (edge n Lp Li) ->
  (1 <= minLevelDist)%Z -> (1 <= divRate)%Z -> n <= length nodeCost ->
  get_coarse_Level_set_DAG_CSC03 zero add ltb int_max sortp n Lp Li 0 minLevelDist divRate nodeCost = Err DivZero.
Proof.
  intros T DT zero add ltb im sp n Lp Li md dr nc HS W D1 Hn HC HV Hmd Hdr HN.
  destruct (C44_lbc_valid T DT zero add ltb im sp n Lp Li 1 md dr nc) as (k & lp & pp & np & E & _ & Hk & _); auto; [lia|].
  unfold get_coarse_Level_set_DAG_CSC03 in *.
  destruct (build_levelSet_CSC_alloc n Lp Li) as [[lv [P S]]|]; cbn [bind] in *; [|discriminate].
  destruct (lv <? 0)%Z; [discriminate|]. do 2 step_in E.
  change (height_partitioning_DAG_trng (Z.to_nat lv) P (Z.to_nat lv) 0 md dr) with (height_partitioning_DAG_trng (Z.to_nat lv) P (Z.to_nat lv) 1 md dr).
  do 4 step_in E.
  match type of E with bind (for_ 0 ?k _ _) _ = _ => rename k into kk end.
  destruct (le_lt_dec kk 0) as [Hz|Hz].
  - assert (kk = 0) by lia. subst kk. rewrite for_nil in E by lia. discriminate.
  - rewrite for_step in * by lia.
    match type of E with bind (bind ?m _) _ = _ => destruct m as [s1|] eqn:E1; cbn [bind] in E; [|discriminate E] end.
    now rewrite (slab_div _ _ _ _ _ _ _ _ _ _ _ _ _ _ _ _ _ _ E1).
Qed.
Print Assumptions C44_no_parts_divides.

(** nine nodes, three chains of three *)
Definition chains3_p := [0;2;4;6;8;10;12;13;14;15].
Definition chains3_i := [0;3;1;4;2;5;3;6;4;7;5;8;6;7;8].

Example C44_hyps : wf_csc 9 chains3_p chains3_i /\ one_diag 9 chains3_p chains3_i /\ ~ has_cycle (edge 9 chains3_p chains3_i) /\ ~ visits_all 9 (edge 9 chains3_p chains3_i).
Proof.
  assert (W : wf_csc 9 chains3_p chains3_i) by now apply wf_cscb_ok.
  assert (D : one_diag 9 chains3_p chains3_i) by (apply one_diag_of_first; now apply diag_firstb_ok).
  destruct (inplace_total 9 chains3_p chains3_i (repeat 0 10) (repeat 0 9) W D) as (k & ptr & lset & n2 & E & H); [simpl; lia|simpl; lia|reflexivity|].
  vm_compute in E. injection E as <- <- <-. destruct H as [(H & _)|(_ & _ & H)]; [discriminate|].
  splits; auto; intros C; apply H; split; auto; lia.
Qed.
Example C44_run : get_coarse_Level_set_DAG_CSC03 0%Z Z.add Z.ltb INT_MAX sort_desc 9 chains3_p chains3_i 2 1 1 (repeat 1%Z 9) =
  Ok (3, ([0; 1; 3; 4; 0; 0; 0; 0; 0; 0], [0; 3; 4; 6; 9; 0; 0; 0; 0], [0; 1; 2; 5; 3; 4; 6; 7; 8])).
Proof. vm_compute. reflexivity. Qed.

(** * C73: the parts of a level are balanced *)

Definition part_cost (cost : list Z) (pp np : list nat) (p : nat) : Z := sumZ (map (fun k => cost.[np.[k]]) (seq pp.[p] (pp.[S p] - pp.[p]))).

(** no node of level [l] depends on another one, so that every node can go to every part *)
Definition independent_level (E : nat -> nat -> Prop) (lp pp np : list nat) (l : nat) : Prop :=
  forall u v pu ku pv kv, sched_at lp pp np l pu ku u -> sched_at lp pp np l pv kv v -> ~ E u v.

(** One would expect that the parts of such a level differ by at most one node's cost.  The costs of the
    components and of the bins are however not reset between two levels: with expensive nodes in the first
    level all the nodes of the second go to the same part. *)
Theorem C73_balance_refuted : ~ (forall n Lp Li innerParts minLevelDist divRate nodeCost M k lp pp np,
  wf_csc n Lp Li -> one_diag n Lp Li -> 0 < n -> ~ has_cycle (edge n Lp Li) -> ~ visits_all n (edge n Lp Li) ->
  innerParts <> 0%Z -> (1 <= minLevelDist)%Z -> (1 <= divRate)%Z -> length nodeCost = n ->
  get_coarse_Level_set_DAG_CSC03 0%Z Z.add Z.ltb INT_MAX sort_desc n Lp Li innerParts minLevelDist divRate nodeCost = Ok (k, (lp, pp, np)) ->
  forall l, l < k -> independent_level (edge n Lp Li) lp pp np l ->
  (forall p i v, sched_at lp pp np l p i v -> (0 <= nodeCost.[v] <= M)%Z) ->
  forall p q, lp.[l] <= p < lp.[S l] -> lp.[l] <= q < lp.[S l] -> (part_cost nodeCost pp np p <= part_cost nodeCost pp np q + M)%Z).
Proof.
  intros H. destruct C44_hyps as (W & D & C1 & C2).
  specialize (H 9 chains3_p chains3_i 2%Z 1%Z 1%Z [100;100;100;1;1;1;1;1;1]%Z 1%Z 3 [0; 1; 3; 4; 0; 0; 0; 0; 0; 0] [0; 3; 3; 6; 9; 0; 0; 0; 0] [0; 1; 2; 3; 4; 5; 6; 7; 8]
    W D ltac:(lia) C1 C2 ltac:(lia) ltac:(lia) ltac:(lia) ltac:(reflexivity) ltac:(vm_compute; reflexivity) 1 ltac:(lia)).
  assert (R : forall p i v, sched_at [0; 1; 3; 4; 0; 0; 0; 0; 0; 0] [0; 3; 3; 6; 9; 0; 0; 0; 0] [0; 1; 2; 3; 4; 5; 6; 7; 8] 1 p i v -> 3 <= v < 6).
  { intros p i v (A & B & C). assert (P : p = 1 \/ p = 2) by (vm_compute in A; lia). assert (I : i = 3 \/ i = 4 \/ i = 5) by (destruct P; subst p; vm_compute in B; lia).
    destruct I as [->|[->|I]]; [| |subst i]; vm_compute in C; lia. }
  enough (K : (part_cost [100;100;100;1;1;1;1;1;1]%Z [0; 3; 3; 6; 9; 0; 0; 0; 0]%nat [0; 1; 2; 3; 4; 5; 6; 7; 8]%nat 2 <=
    part_cost [100;100;100;1;1;1;1;1;1]%Z [0; 3; 3; 6; 9; 0; 0; 0; 0]%nat [0; 1; 2; 3; 4; 5; 6; 7; 8]%nat 1 + 1)%Z) by (vm_compute in K; auto).
  apply H.
  - intros u v pu ku pv kv A B He. apply R in A. apply R in B.
    assert (X : u = 3 \/ u = 4 \/ u = 5) by lia. destruct He as (_ & (j & Hj & Ej) & Hne).
    destruct X as [->|[->|X]]; [| |subst u]; vm_compute in Hj.
    + assert (J : j = 6 \/ j = 7) by lia. destruct J; subst j; vm_compute in Ej; lia.
    + assert (J : j = 8 \/ j = 9) by lia. destruct J; subst j; vm_compute in Ej; lia.
    + assert (J : j = 10 \/ j = 11) by lia. destruct J; subst j; vm_compute in Ej; lia.
  - intros p i v A. apply R in A. assert (X : v = 3 \/ v = 4 \/ v = 5) by lia. destruct X as [->|[->|X]]; [| |subst v]; vm_compute; split; discriminate.
  - vm_compute; lia.
  - vm_compute; lia.
Qed.
Print Assumptions C73_balance_refuted.
