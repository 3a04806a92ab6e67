(** Renumbering of groups by their smallest member. *)
From Coq Require Import ZifyBool ZifyNat.
From Verif Require Import Base Lib Lib2 Lib3 Spec SpecSolve M_Sched L_Sched M_Group.

(** a partition into non-empty consecutive segments *)
Definition raw_groups (n ng : nat) (ptr set : list nat) : Prop :=
  length ptr = S ng /\ ptr.[0] = 0 /\ (forall g, g < ng -> ptr.[g] < ptr.[S g]) /\ ptr.[ng] = n /\ is_perm n set.

(** [rho] renames groups and keeps their lists *)
Definition renamed (ng : nat) (ptr set gp gs : list nat) (rho : nat -> nat) : Prop :=
  (forall g, g < ng -> rho g < ng) /\ (forall g h, g < ng -> h < ng -> rho g = rho h -> g = h) /\
  (forall g, g < ng -> gp.[S g] - gp.[g] = ptr.[S (rho g)] - ptr.[rho g] /\
     forall j, j < gp.[S g] - gp.[g] -> gs.[gp.[g] + j] = set.[ptr.[rho g] + j]).

(** groups appear by increasing smallest member *)
Definition min_ordered (ng : nat) (gp gs : list nat) : Prop :=
  forall g h, g < h -> h < ng -> exists u, in_level gp gs g u /\ forall v, in_level gp gs h v -> u < v.

Lemma cnt_interval n a b : a <= b -> b <= n -> cnt 0 n (fun i => (a <=? i) && (i <? b)) = b - a.
Proof.
  intros Hab Hb. rewrite (cnt_split 0 a n), (cnt_split a b n) by lia.
  rewrite (cnt_all_false 0 a), (cnt_all_true a b), (cnt_all_false b n); [lia| | |]; intros i Hi; lia.
Qed.

Lemma inj_count K M (f : nat -> nat) : (forall i, i < K -> f i < M) ->
  (forall i j, i < K -> j < K -> f i = f j -> i = j) -> K <= M.
Proof.
  intros HB HI. rewrite <- (seq_length K 0), <- (map_length f). apply NoDup_bounded_length.
  - apply NoDup_of_aget. rewrite map_length, seq_length. intros i j Hi Hj E.
    rewrite !aget_map_seq in E by auto. auto.
  - intros x Hx. apply in_map_iff in Hx. destruct Hx as (i & <- & Hi). apply in_seq in Hi. apply HB. lia.
Qed.

Section Renumber.
Variables (n ng : nat) (ptr set : list nat).
Hypothesis RG : raw_groups n ng ptr set.

Definition is_gmin (g m : nat) : Prop :=
  (exists k, ptr.[g] <= k < ptr.[S g] /\ set.[k] = m) /\ forall k, ptr.[g] <= k < ptr.[S g] -> m <= set.[k].

Lemma rg_mono i j : i <= j -> j <= ng -> ptr.[i] <= ptr.[j].
Proof. apply (mono_le (aget ptr) ng). intros g Hg. destruct RG as (_ & _ & H & _). specialize (H g Hg). lia. Qed.

Lemma rg_le i : i <= ng -> ptr.[i] <= n.
Proof. intros Hi. pose proof (rg_mono i ng Hi ltac:(lia)). destruct RG as (_ & _ & _ & HH & _). lia. Qed.

Lemma rg_of k : k < n -> exists g, g < ng /\ ptr.[g] <= k < ptr.[S g].
Proof. intros Hk. destruct RG as (_ & H0 & _ & Hn & _). apply (bucket_exists (aget ptr) ng k); lia. Qed.

Lemma rg_unique k g h : g < ng -> h < ng -> ptr.[g] <= k < ptr.[S g] -> ptr.[h] <= k < ptr.[S h] -> g = h.
Proof.
  apply (bucket_unique (aget ptr) ng). intros i Hi. destruct RG as (_ & _ & H & _). specialize (H i Hi). lia.
Qed.

Lemma is_gmin_lt g m : g < ng -> is_gmin g m -> m < n.
Proof.
  intros Hg ((k & Hk & <-) & _). pose proof (rg_le (S g) ltac:(lia)). destruct RG as (_ & _ & _ & _ & HP).
  apply (is_perm_lt n); auto. lia.
Qed.

Lemma is_gmin_fun g m m' : is_gmin g m -> is_gmin g m' -> m = m'.
Proof. intros ((k & Hk & E) & H) ((k' & Hk' & E') & H'). specialize (H k' Hk'). specialize (H' k Hk). lia. Qed.

Lemma is_gmin_inj g h m : g < ng -> h < ng -> is_gmin g m -> is_gmin h m -> g = h.
Proof.
  intros Hg Hh ((k & Hk & E) & _) ((k' & Hk' & E') & _).
  pose proof (rg_le (S g) ltac:(lia)). pose proof (rg_le (S h) ltac:(lia)). destruct RG as (_ & _ & _ & _ & HP).
  assert (k = k') by (apply (is_perm_inj n set); auto; [lia|lia|congruence]). subst k'. now apply (rg_unique k).
Qed.

Lemma group_min_wp g (Q : nat -> Prop) : g < ng -> (forall m, is_gmin g m -> Q m) -> wp (group_min n set ptr.[g] ptr.[S g]) Q.
Proof.
  intros Hg HQ. unfold group_min. pose proof (rg_le (S g) ltac:(lia)) as Hle.
  pose proof RG as (_ & _ & HS & _ & HP). specialize (HS g Hg). pose proof HP as (HL & _ & _).
  apply (wp_for (fun i id => (id = n /\ i = ptr.[g] \/ exists k, ptr.[g] <= k < i /\ set.[k] = id) /\
     forall k, ptr.[g] <= k < i -> id <= set.[k])).
  - lia.
  - split; [left; auto|]. intros; lia.
  - intros i id Hi (H1 & H2). wp1. wp1; [lia|]. wp1. pose proof (is_perm_lt n set i HP ltac:(lia)).
    destruct (Nat.ltb_spec set.[i] id).
    + split; [right; exists i; split; auto; lia|]. intros k Hk. destruct (Nat.eq_dec k i) as [->|]; auto.
      specialize (H2 k ltac:(lia)). lia.
    + split.
      * right. destruct H1 as [[-> ->]|(k & Hk & E)]; [lia|]. exists k. split; auto. lia.
      * intros k Hk. destruct (Nat.eq_dec k i) as [->|]; auto. apply H2. lia.
  - intros id (H1 & H2). apply HQ. split; auto. destruct H1 as [[-> H1]|H1]; auto. lia.
Qed.

Lemma name_groups_wp (Q : _ -> Prop) :
  (forall gid gsz, length gid = n -> length gsz = S n -> gsz.[0] = 0 ->
     (forall g k, g < ng -> ptr.[g] <= k < ptr.[S g] -> is_gmin g gid.[set.[k]]) ->
     (forall g m, g < ng -> is_gmin g m -> gsz.[S m] = ptr.[S g] - ptr.[g]) ->
     (forall l, l < n -> (forall g, g < ng -> ~ is_gmin g l) -> gsz.[S l] = 0) -> Q (gid, gsz)) ->
  wp (name_groups n ng ptr set) Q.
Proof.
  intros HQ. unfold name_groups. pose proof RG as (HLp & H0 & HS & Hn & HP). pose proof HP as (HL & _ & _).
  apply (wp_for (fun m st => let '(gid, gsz) := st in length gid = n /\ length gsz = S n /\ gsz.[0] = 0 /\
     (forall g k, g < m -> ptr.[g] <= k < ptr.[S g] -> is_gmin g gid.[set.[k]]) /\
     (forall g x, g < m -> is_gmin g x -> gsz.[S x] = ptr.[S g] - ptr.[g]) /\
     (forall l, l < n -> (forall g, g < m -> ~ is_gmin g l) -> gsz.[S l] = 0))).
  - lia.
  - rewrite !repeat_length. splits; auto; try lia; try (intros; lia).
    + apply aget_repeat. lia.
    + intros l Hl _. apply aget_repeat. lia.
  - intros g (gid & gsz) Hg (L1 & L2 & Z0 & I1 & I2 & I3).
    wp1. wp1; [lia|]. wp1. wp1; [lia|]. wp1. apply group_min_wp; [lia|]. intros m Hm.
    pose proof (is_gmin_lt g m ltac:(lia) Hm) as Hmn. pose proof (rg_le (S g) ltac:(lia)) as Hle.
    pose proof (HS g ltac:(lia)) as HSg.
    wp1. wp1; [lia|]. wp1.
    apply (wp_for (fun i gid' => length gid' = n /\
      (forall h k, h < g -> ptr.[h] <= k < ptr.[S h] -> gid'.[set.[k]] = gid.[set.[k]]) /\
      (forall k, ptr.[g] <= k < i -> gid'.[set.[k]] = m))); [lia| | |].
    + splits; auto. intros; lia.
    + intros i gid' Hi (M1 & M2 & M3). wp1. wp1; [lia|].
      pose proof (is_perm_lt n set i HP ltac:(lia)). wp1; [lia|]. splits; [now rewrite upd_length| |].
      * intros h k Hh Hk. rewrite aget_upd by lia. destruct (Nat.eqb_spec set.[k] set.[i]) as [E|]; [|now apply (M2 h)].
        pose proof (rg_le (S h) ltac:(lia)). pose proof (rg_mono (S h) g ltac:(lia) ltac:(lia)).
        apply (is_perm_inj n set) in E; auto; lia.
      * intros k Hk. rewrite aget_upd by lia. destruct (Nat.eqb_spec set.[k] set.[i]) as [E|E]; auto.
        apply M3. destruct (Nat.eq_dec k i); [congruence|lia].
    + intros gid' (M1 & M2 & M3). wp1. splits; auto; try (now rewrite upd_length).
      * rewrite aget_upd by lia. simpl. auto.
      * intros h k Hh Hk. destruct (Nat.eq_dec h g) as [->|]; [now rewrite M3|]. rewrite (M2 h) by (auto; lia). apply I1; auto. lia.
      * intros h x Hh Hx. pose proof (is_gmin_lt h x ltac:(lia) Hx). rewrite aget_upd by lia.
        destruct (Nat.eqb_spec (S x) (S m)) as [E|E].
        { assert (x = m) by lia. subst x. now rewrite (is_gmin_inj h g m ltac:(lia) ltac:(lia) Hx Hm). }
        apply I2; auto. destruct (Nat.eq_dec h g) as [->|]; [|lia]. elim E. f_equal. eapply is_gmin_fun; eauto.
      * intros l Hl Hno. rewrite aget_upd by lia. destruct (Nat.eqb_spec (S l) (S m)) as [E|E].
        { assert (l = m) by lia. subst l. elim (Hno g ltac:(lia) Hm). }
        apply I3; auto.
  - intros (gid & gsz) (L1 & L2 & Z0 & I1 & I2 & I3). apply HQ; auto.
Qed.

Lemma renumber_groups_wp (Q : _ -> Prop) :
  (forall gp gs rho, raw_groups n ng gp gs -> renamed ng ptr set gp gs rho -> min_ordered ng gp gs -> Q (gp, gs)) ->
  wp (renumber_groups n ng ptr set) Q.
Proof.
  intros HQ. unfold renumber_groups. pose proof RG as (HLp & H0 & HS & Hn & HP). pose proof HP as (HL & HND & HIP).
  wp1. apply name_groups_wp. intros gid gsz L1 L2 Z0 I1 I2 I3.
  set (f := fun i => gid.[set.[i]]).
  assert (HfM : forall i g, i < n -> g < ng -> ptr.[g] <= i < ptr.[S g] -> is_gmin g (f i)) by (intros; now apply I1).
  assert (HfG : forall i g, i < n -> g < ng -> is_gmin g (f i) -> ptr.[g] <= i < ptr.[S g]).
  { intros i g Hi Hg Hm. destruct (rg_of i Hi) as (h & Hh & Hb). pose proof (HfM i h Hi Hh Hb) as Hm'.
    rewrite (is_gmin_inj g h (f i) Hg Hh Hm Hm'). auto. }
  assert (HIn : forall i, i < length set -> gid.[set.[i]] < length set).
  { intros i Hi. rewrite HL in *. destruct (rg_of i Hi) as (h & Hh & Hb). apply (is_gmin_lt h); auto. }
  assert (HOut : forall x, x < n -> ~ In x set -> gid.[x] = n) by (intros x Hx Hno; elim Hno; now apply HIP).
  assert (HNB : forall x, In x set -> x < n) by (intros x; apply HIP).
  assert (HC : forall l, l < n -> gsz.[S l] = cnt 0 (length set) (fun i => f i =? l)).
  { intros l Hl. rewrite HL. destruct (Nat.eq_dec (cnt 0 n (fun i => f i =? l)) 0) as [E|E].
    - rewrite E. apply I3; auto. intros g Hg Hm. pose proof Hm as ((k & Hk & Ek) & _).
      pose proof (rg_le (S g) ltac:(lia)). pose proof (cnt_zero _ _ _ E k ltac:(lia)) as Hz. cbv beta in Hz.
      apply Nat.eqb_neq in Hz. elim Hz. eapply is_gmin_fun; [|exact Hm]. apply HfM; auto. lia.
    - destruct (cnt_pos 0 n (fun i => f i =? l) ltac:(lia)) as (i & Hi & Ei). apply Nat.eqb_eq in Ei.
      destruct (rg_of i ltac:(lia)) as (g & Hg & Hb). pose proof (HfM i g ltac:(lia) Hg Hb) as Hm. rewrite Ei in Hm.
      rewrite (I2 g l Hg Hm). pose proof (rg_le (S g) ltac:(lia)). specialize (HS g Hg).
      rewrite <- (cnt_interval n ptr.[g] ptr.[S g]) by lia. apply cnt_ext. intros j Hj.
      destruct (Nat.eqb_spec (f j) l) as [E'|E'].
      + rewrite <- E' in Hm. apply HfG in Hm; auto; [|lia]. lia.
      + destruct (Nat.leb_spec ptr.[g] j), (Nat.ltb_spec j ptr.[S g]); auto. elim E'.
        eapply is_gmin_fun; [|exact Hm]. apply HfM; auto; lia. }
  wp1. apply scan_counts_wp with (nodes := set) (lab := gid) (c := gsz); auto. intros c' HLc' HC'.
  wp1. apply make_part_ptr_wp with (nodes := set) (lab := gid) (c := c'); auto. intros pp HPP.
  wp1. replace (place_by_name n set gid c') with (place_nodes set gid c') by (rewrite <- HL; reflexivity).
  apply place_nodes_wp with (n := n) (nodes := set) (lab := gid) (c := c'); auto. intros np HLnp HPl.
  destruct HPP as (P1 & P2 & P3 & P4 & P5). fold f in P1, P5, HPl, HC'. rewrite HL in *.
  assert (HPerm : Permutation np set) by (apply placed_perm with (n := n) (lab := gid); auto; rewrite HL; auto).
  wp1. set (K := length pp - 1).
  assert (HKp : length pp = S K) by (unfold K; lia). clear P1.
  assert (HSt : forall a b, a < b -> b <= K -> pp.[a] < pp.[b]).
  { intros a b Hab. induction Hab as [|b Hab IH]; intros Hb; [apply P3; lia|].
    specialize (IH ltac:(lia)). specialize (P3 b ltac:(lia)). lia. }
  (* every new group is a bucket of some raw group *)
  assert (HB : forall q, q < K -> exists g m, g < ng /\ is_gmin g m /\ pp.[q] = cbase n f m /\ pp.[S q] = cbase n f (S m)).
  { intros q Hq. pose proof (HSt q (S q) ltac:(lia) ltac:(lia)) as Hlt.
    assert (pp.[S q] <= n).
    { destruct (Nat.eq_dec (S q) K) as [->|]; [unfold K; lia|]. pose proof (HSt (S q) K ltac:(lia) ltac:(lia)). unfold K in *. lia. }
    destruct (cpos_onto n f pp.[q] ltac:(lia)) as (i & Hi & Ei).
    destruct (rg_of i Hi) as (g & Hg & Hb). pose proof (HfM i g Hi Hg Hb) as Hm.
    pose proof (cpos_lo n f i) as C1. pose proof (cpos_hi n f i Hi) as C2.
    destruct (P5 (f i) ltac:(apply (is_gmin_lt g); auto) ltac:(lia)) as (q' & Hq' & E1 & E2).
    exists g, (f i). assert (q' = q).
    { destruct (Nat.lt_total q q') as [L|[L|L]]; auto.
      - pose proof (HSt q q' L ltac:(lia)). lia.
      - destruct (Nat.eq_dec (S q') q) as [E|E]; [rewrite E in E2; lia|]. pose proof (HSt (S q') q ltac:(lia) ltac:(lia)). lia. }
    subst q'. auto. }
  (* every raw group is a new group *)
  assert (HA : forall g, g < ng -> exists q m, q < K /\ is_gmin g m /\ pp.[q] = cbase n f m /\ pp.[S q] = cbase n f (S m)).
  { intros g Hg. pose proof (HS g Hg). pose proof (rg_le (S g) ltac:(lia)).
    pose proof (HfM ptr.[g] g ltac:(lia) Hg ltac:(lia)) as Hm.
    pose proof (cpos_lo n f ptr.[g]) as C1. pose proof (cpos_hi n f ptr.[g] ltac:(lia)) as C2.
    destruct (P5 (f ptr.[g]) ltac:(apply (is_gmin_lt g); auto) ltac:(lia)) as (q & Hq & E1 & E2).
    exists q, (f ptr.[g]). splits; auto. lia. }
  assert (HMon : forall m m', cbase n f m < cbase n f (S m) -> cbase n f m' < cbase n f (S m') -> cbase n f m < cbase n f m' -> m < m').
  { intros m m' C1 C2 C3. destruct (le_lt_dec m' m) as [L|L]; auto. pose proof (cbase_mono n f m' m L). lia. }
  (* choose *)
  assert (HCh : exists rho, forall q, q < K -> rho q < ng /\ exists m, is_gmin (rho q) m /\ pp.[q] = cbase n f m /\ pp.[S q] = cbase n f (S m)).
  { clear - HB. induction K as [|K IH]; [exists (fun _ => 0); intros; lia|].
    destruct IH as (rho & Hrho). { intros q Hq. apply HB. lia. }
    destruct (HB K ltac:(lia)) as (g & m & Hg & Hm & E). exists (fun q => if q =? K then g else rho q).
    intros q Hq. destruct (Nat.eqb_spec q K) as [->|]; [|apply Hrho; lia]. split; auto. exists m. auto. }
  destruct HCh as (rho & Hrho).
  assert (Hinj : forall q q', q < K -> q' < K -> rho q = rho q' -> q = q').
  { intros q q' Hq Hq' E. destruct (Hrho q Hq) as (_ & m & Hm & E1 & _). destruct (Hrho q' Hq') as (_ & m' & Hm' & E1' & _).
    rewrite E in Hm. pose proof (is_gmin_fun _ _ _ Hm Hm'). subst m'.
    destruct (Nat.lt_total q q') as [L|[L|L]]; auto; [pose proof (HSt q q' L ltac:(lia))|pose proof (HSt q' q L ltac:(lia))]; lia. }
  assert (HK : K = ng).
  { assert (K <= ng) by (apply (inj_count K ng rho); auto; intros q Hq; apply Hrho; auto).
    assert (HCh : exists sg, forall g, g < ng -> sg g < K /\ exists m, is_gmin g m /\ pp.[sg g] = cbase n f m).
    { clear - HA. revert HA. generalize ng as M. induction M as [|M IH]; intros HA; [exists (fun _ => 0); intros; lia|].
      destruct IH as (sg & Hsg). { intros q Hq. apply HA. lia. }
      destruct (HA M ltac:(lia)) as (q & m & Hq & Hm & E1 & E2). exists (fun g => if g =? M then q else sg g).
      intros g Hg. destruct (Nat.eqb_spec g M) as [->|]; [|apply Hsg; lia]. split; auto. exists m. auto. }
    destruct HCh as (sg & Hsg). assert (ng <= K); [|lia]. apply (inj_count ng K sg); [intros g Hg; apply Hsg; auto|].
    intros g h Hg Hh E. destruct (Hsg g Hg) as (Hg' & m & Hm & E1). destruct (Hsg h Hh) as (Hh' & m' & Hm' & E1').
    destruct (Hrho (sg g) Hg') as (R1 & m0 & R2 & R3 & R4). pose proof (HSt (sg g) (S (sg g)) ltac:(lia) ltac:(lia)).
    assert (m = m').
    { rewrite E in E1. assert (EE : cbase n f m = cbase n f m') by congruence.
      pose proof Hm as ((k & Hk & Ek) & Hm2). pose proof Hm' as ((k' & Hk' & Ek') & Hm2').
      pose proof (rg_le (S g) ltac:(lia)). pose proof (rg_le (S h) ltac:(lia)).
      assert (F1 : f k = m) by (apply (is_gmin_fun g); auto; apply HfM; auto; lia).
      assert (F2 : f k' = m') by (apply (is_gmin_fun h); auto; apply HfM; auto; lia).
      pose proof (cpos_lo n f k). pose proof (cpos_hi n f k ltac:(lia)). pose proof (cpos_lo n f k'). pose proof (cpos_hi n f k' ltac:(lia)).
      rewrite F1 in *. rewrite F2 in *.
      destruct (Nat.lt_total m m') as [L|[L|L]]; auto;
        [pose proof (cbase_mono n f (S m) m' ltac:(lia))|pose proof (cbase_mono n f (S m') m ltac:(lia))]; lia. }
    subst m'. apply (is_gmin_inj g h m); auto. }
  clearbody K. subst K.
  assert (HB1 : forall q, q < ng -> exists m, is_gmin (rho q) m /\ pp.[q] = cbase n f m /\ pp.[S q] = cbase n f (S m) /\
    pp.[S q] - pp.[q] = ptr.[S (rho q)] - ptr.[rho q] /\
    forall j, j < pp.[S q] - pp.[q] -> np.[pp.[q] + j] = set.[ptr.[rho q] + j]).
  { intros q Hq. destruct (Hrho q Hq) as (R1 & m & R2 & R3 & R4). exists m. splits; auto.
    - rewrite R3, R4, cbase_S. pose proof (is_gmin_lt (rho q) m R1 R2) as Hmn.
      rewrite <- HC by auto. rewrite (I2 (rho q) m R1 R2). lia.
    - assert (HBS := bucket_slice n f (aget np) (aget set) m HPl).
      assert (HF : filter (fun j => f j =? m) (seq 0 n) = seq ptr.[rho q] (ptr.[S (rho q)] - ptr.[rho q])).
      { pose proof (rg_le (S (rho q)) ltac:(lia)). pose proof (HS (rho q) R1).
        set (a := ptr.[rho q]) in *. set (b := ptr.[S (rho q)]) in *.
        replace n with (a + ((b - a) + (n - b))) by lia. rewrite !seq_app, !filter_app.
        assert (HX : forall j, j < n -> (f j = m <-> a <= j < b)).
        { intros j Hj. split.
          - intros E. apply HfG; auto. now rewrite E.
          - intros Hb. eapply is_gmin_fun; [|exact R2]. apply HfM; auto. }
        simpl. replace (a + (b - a)) with b by lia.
        assert (F1 : filter (fun j => f j =? m) (seq 0 a) = []).
        { rewrite (filter_ext_in' _ (fun _ => false)); [induction (seq 0 a); auto|].
          intros x Hx. apply in_seq in Hx. pose proof (HX x ltac:(lia)). destruct (Nat.eqb_spec (f x) m); auto. lia. }
        assert (F2 : filter (fun j => f j =? m) (seq b (n - b)) = []).
        { rewrite (filter_ext_in' _ (fun _ => false)); [induction (seq b (n - b)); auto|].
          intros x Hx. apply in_seq in Hx. pose proof (HX x ltac:(lia)). destruct (Nat.eqb_spec (f x) m); auto. lia. }
        assert (F3 : filter (fun j => f j =? m) (seq a (b - a)) = seq a (b - a)).
        { rewrite (filter_ext_in' _ (fun _ => true)); [induction (seq a (b - a)) as [|y t IH]; simpl; congruence|].
          intros x Hx. apply in_seq in Hx. pose proof (HX x ltac:(lia)). destruct (Nat.eqb_spec (f x) m); auto. lia. }
        rewrite F1, F2, F3, app_nil_r. auto. }
      rewrite HF, <- R3, <- R4 in HBS. intros j Hj.
      assert (EL := f_equal (@length nat) HBS). rewrite !map_length, !seq_length in EL.
      assert (EA := f_equal (fun l => l.[j]) HBS). cbv beta in EA.
      rewrite !aget_map in EA by (rewrite seq_length; lia). rewrite !aget_seq in EA by lia. auto. }
  apply (HQ pp np rho).
  - unfold raw_groups. splits; auto; try lia.
    + rewrite <- P4. f_equal. lia.
    + apply is_perm_intro; auto.
      * eapply Permutation_NoDup; [apply Permutation_sym; exact HPerm|auto].
      * intros x Hx. apply HIP. eapply Permutation_in; eauto.
  - unfold renamed. splits; auto; [intros g Hg; apply Hrho; auto|]. intros g Hg. destruct (HB1 g Hg) as (m & _ & _ & _ & E1 & E2). auto.
  - intros g h Hgh Hh. destruct (HB1 g ltac:(lia)) as (m & M1 & M2 & M3 & M4 & M5).
    destruct (HB1 h Hh) as (m' & M1' & M2' & M3' & M4' & M5').
    pose proof (HSt g (S g) ltac:(lia) ltac:(lia)). pose proof (HSt h (S h) ltac:(lia) ltac:(lia)).
    pose proof (HSt g h ltac:(lia) ltac:(lia)).
    assert (m < m') by (apply HMon; lia).
    exists m. split.
    + destruct M1 as ((k & Hk & Ek) & _). exists (pp.[g] + (k - ptr.[rho g])). split; [lia|].
      rewrite M5 by lia. rewrite <- Ek. f_equal. lia.
    + intros v (k & Hk & <-). replace k with (pp.[h] + (k - pp.[h])) by lia. rewrite M5' by lia.
      assert (m' <= set.[ptr.[rho h] + (k - pp.[h])]) by (apply M1'; lia). lia.
Qed.
End Renumber.
