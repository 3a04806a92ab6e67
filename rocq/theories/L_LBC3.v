(** Proofs about one slab of the LBC driver: components, ordering inside the components. *)
From Verif Require Import Base Lib Lib2 Spec L_LevelSet L_LevelSet2 M_LBC L_LBC L_LBC2.
From Coq Require Import ZifyBool ZifyNat.

(** the level structure the driver works with *)
Record lev_ok (n : nat) (Lp Li : list nat) (levelNo : nat) (lp ls n2l : list nat) : Prop := {
  lo_lp : levelNo < length lp;
  lo_ls : n <= length ls;
  lo_n2l : length n2l = n;
  lo_part : level_partition n levelNo lp ls;
  lo_at : forall l i, l < levelNo -> lp.[l] <= i < lp.[S l] -> n2l.[ls.[i]] = l;
  lo_edge : forall u v, edge n Lp Li u v -> n2l.[u] < n2l.[v];
  lo_pred : forall v, v < n -> 0 < n2l.[v] -> exists u, edge n Lp Li u v /\ S n2l.[u] = n2l.[v];
  lo_in : forall v, v < n -> n2l.[v] < levelNo /\ exists i, lp.[n2l.[v]] <= i < lp.[S n2l.[v]] /\ ls.[i] = v }.

Section Slab.
Variables (n : nat) (Lp Li : list nat).
Hypothesis W : wf_csc n Lp Li.
Variables (levelNo : nat) (lp ls n2l : list nat).
Hypothesis LO : lev_ok n Lp Li levelNo lp ls n2l.

Lemma lo_mono i j : i <= j -> j <= levelNo -> lp.[i] <= lp.[j].
Proof. apply (mono_le (aget lp) levelNo). apply (lo_part _ _ _ _ _ _ _ LO). Qed.

Lemma lo_le l : l <= levelNo -> lp.[l] <= n.
Proof.
  intros H. pose proof (lo_mono l levelNo H ltac:(lia)). destruct (lo_part _ _ _ _ _ _ _ LO) as (_ & _ & E & _). lia.
Qed.

Lemma lo_lt i : i < n -> ls.[i] < n.
Proof. destruct (lo_part _ _ _ _ _ _ _ LO) as (_ & _ & _ & H & _). auto. Qed.

(** positions of level range [a,b) *)
Lemma lo_range a b i : a <= b -> b <= levelNo -> lp.[a] <= i < lp.[b] -> a <= n2l.[ls.[i]] < b.
Proof.
  intros Hab Hb Hi. destruct (bucket_exists (aget lp) levelNo i) as [l [Hl Hil]].
  { destruct (lo_part _ _ _ _ _ _ _ LO) as (E & _). lia. }
  { destruct (lo_part _ _ _ _ _ _ _ LO) as (_ & _ & E & _). pose proof (lo_le b Hb). lia. }
  rewrite (lo_at _ _ _ _ _ _ _ LO l i) by auto.
  destruct (le_lt_dec a l) as [A|A]; [|pose proof (lo_mono (S l) a ltac:(lia) ltac:(lia)); lia].
  destruct (le_lt_dec b l) as [B|B]; [pose proof (lo_mono b l ltac:(lia) ltac:(lia)); lia|lia].
Qed.

Lemma lo_pos v i : i < n -> ls.[i] = v -> lp.[n2l.[v]] <= i < lp.[S n2l.[v]].
Proof.
  intros Hi E. assert (Hv : v < n) by (subst v; now apply lo_lt).
  destruct (lo_in _ _ _ _ _ _ _ LO v Hv) as (Hl & j & Hj & Ej).
  destruct (lo_part _ _ _ _ _ _ _ LO) as (_ & _ & _ & _ & Inj).
  pose proof (lo_le (S n2l.[v]) ltac:(lia)). rewrite (Inj i j); [auto|auto|lia|congruence].
Qed.

Lemma mark_levels_wp {A} `{Dflt A} a b (x : A) (m : list A) (Q : list A -> Prop) :
  b <= levelNo -> length m = n ->
  (forall m', length m' = n -> (forall v, v < n -> m'.[v] = if (a <=? n2l.[v]) && (n2l.[v] <? b) then x else m.[v]) -> Q m') ->
  wp (mark_levels lp ls a b x m) Q.
Proof.
  intros Hb HL HQ. unfold mark_levels. pose proof (lo_lp _ _ _ _ _ _ _ LO) as L1. pose proof (lo_ls _ _ _ _ _ _ _ LO) as L2.
  destruct (le_lt_dec b a) as [Hba|Hab].
  - rewrite for_nil by lia. wp1. apply HQ; auto. intros v Hv. replace ((a <=? n2l.[v]) && (n2l.[v] <? b)) with false by lia. auto.
  - apply (wp_for (fun i m' => length m' = n /\ forall v, v < n -> m'.[v] = if (a <=? n2l.[v]) && (n2l.[v] <? i) then x else m.[v])).
    + lia.
    + split; auto. intros v Hv. replace ((a <=? n2l.[v]) && (n2l.[v] <? a)) with false by lia. auto.
    + intros i m' Hi (I1 & I2). wp1. wp1; [lia|]. wp1. wp1; [lia|].
      pose proof (lo_mono i (S i) ltac:(lia) ltac:(lia)). pose proof (lo_le (S i) ltac:(lia)).
      apply (wp_for (fun j m'' => length m'' = n /\ forall k, k < n -> m''.[ls.[k]] = if (a <=? n2l.[ls.[k]]) && (n2l.[ls.[k]] <? i) || (lp.[i] <=? k) && (k <? j) then x else m.[ls.[k]])).
      * lia.
      * split; auto. intros k Hk. rewrite I2 by (now apply lo_lt).
        replace ((lp.[i] <=? k) && (k <? lp.[i])) with false by lia. now rewrite orb_false_r.
      * intros j m'' Hj (J1 & J2). pose proof (lo_lt j ltac:(lia)). wp1. wp1; [lia|]. wp1; [lia|]. rewrite upd_length. split; auto.
        intros k Hk. rewrite aget_upd by lia. destruct (Nat.eqb_spec ls.[k] ls.[j]) as [E|E].
        -- destruct (lo_part _ _ _ _ _ _ _ LO) as (_ & _ & _ & _ & Inj). rewrite (Inj k j) by (auto; lia).
           replace ((lp.[i] <=? j) && (j <? S j)) with true by lia. now rewrite orb_true_r.
        -- rewrite J2 by auto. assert (k <> j) by (intros ->; auto). now replace (k <? S j) with (k <? j) by lia.
      * intros m'' (J1 & J2). split; auto. intros v Hv. destruct (lo_in _ _ _ _ _ _ _ LO v Hv) as (Hl & k & Hk & Ek).
        pose proof (lo_le (S n2l.[v]) ltac:(lia)). pose proof (J2 k ltac:(lia)) as E. rewrite Ek in E. rewrite E.
        pose proof (lo_at _ _ _ _ _ _ _ LO i k ltac:(lia)) as AT. rewrite Ek in AT.
        destruct (Nat.eq_dec n2l.[v] i) as [Ei|Ei].
        -- rewrite Ei in *. replace ((lp.[i] <=? k) && (k <? lp.[S i])) with true by lia.
           replace ((a <=? i) && (i <? S i)) with true by lia. now rewrite orb_true_r.
        -- destruct ((lp.[i] <=? k) && (k <? lp.[S i])) eqn:Ec; [specialize (AT ltac:(lia)); lia|]. rewrite orb_false_r.
           now replace (n2l.[v] <? S i) with (n2l.[v] <? i) by lia.
    + intros m' (I1 & I2). apply HQ; auto.
Qed.

(** * The components of the slab of levels [a, b) *)
Variables (a b : nat).
Hypothesis Ha : a < levelNo.
Hypothesis Hab : a < b.

Definition slab (v : nat) : Prop := v < n /\ a <= n2l.[v] < b.

Section Comp.
Context {T : Type} `{DT : Dflt T}.
Variables (add : T -> T -> T) (nodeCost : list T).
Hypothesis Hcost : n <= length nodeCost.

Definition cst : Type := list (option nat) * list T * list Z * list nat * list bool * nat.

Record comp_inv (m00 : list Z) (k : nat) (s : cst) : Prop := {
  ci_n2p : length (fst (fst (fst (fst (fst s))))) = n;
  ci_out : length (snd (fst (fst (fst (fst s))))) = n;
  ci_mark : length (snd (fst (fst (fst s)))) = n;
  ci_al : snd (fst (fst s)) = [];
  ci_un : length (snd (fst s)) = n /\ forall t, (snd (fst s)).[t] = false;
  ci_cc : snd s <= k - lp.[a];
  ci_vals : forall v, slab v -> (snd (fst (fst (fst s)))).[v] = 0%Z \/ (snd (fst (fst (fst s)))).[v] = (if (n2l.[v] =? a)%nat then 1%Z else (-1)%Z);
  ci_rest : forall v, v < n -> ~ slab v -> (snd (fst (fst (fst s)))).[v] = m00.[v];
  ci_part : forall v, slab v -> (snd (fst (fst (fst s)))).[v] <> 0%Z ->
     exists c, (fst (fst (fst (fst (fst s))))).[v] = Some c /\ c < snd s;
  ci_closed : forall u v, slab u -> slab v -> edge n Lp Li u v -> (snd (fst (fst (fst s)))).[u] <> 0%Z ->
     (snd (fst (fst (fst s)))).[v] <> 0%Z /\ (fst (fst (fst (fst (fst s))))).[v] = (fst (fst (fst (fst (fst s))))).[u];
  ci_done : forall i, lp.[a] <= i < k -> (snd (fst (fst (fst s)))).[ls.[i]] <> 0%Z }.

Lemma components_wp n2p0 oc0 m00 (Q : list (option nat) * list T * list Z * nat -> Prop) :
  length n2p0 = n -> length oc0 = n -> length m00 = n ->
  (forall v, slab v -> m00.[v] = 0%Z) ->
  (forall v, v < n -> b <= n2l.[v] -> m00.[v] = 1%Z) ->
  (forall n2p oc m cc, length n2p = n -> length oc = n -> length m = n ->
     cc <= lp.[S a] - lp.[a] ->
     (forall v, v < n -> ~ slab v -> m.[v] = m00.[v]) ->
     (forall v, slab v -> exists c, n2p.[v] = Some c /\ c < cc) ->
     (forall u v, slab u -> slab v -> edge n Lp Li u v -> n2p.[v] = n2p.[u]) -> Q (n2p, oc, m, cc)) ->
  wp (slab_components add n Lp Li lp ls n2l nodeCost a n2p0 oc0 m00) Q.
Proof.
  intros H1 H2 H3 H4 H5 HQ. unfold slab_components.
  pose proof (lo_lp _ _ _ _ _ _ _ LO) as L1. pose proof (lo_ls _ _ _ _ _ _ _ LO) as L2. pose proof (lo_n2l _ _ _ _ _ _ _ LO) as L3.
  pose proof (lo_mono a (S a) ltac:(lia) ltac:(lia)) as Hle. pose proof (lo_le (S a) ltac:(lia)) as Hn.
  wp1. wp1; [lia|]. wp1. wp1; [lia|]. wp1.
  apply (wp_for (comp_inv m00)).
  - lia.
  - constructor; cbn [fst snd]; auto.
    + split; [apply repeat_length|]. intros t. destruct (le_lt_dec n t) as [L|L].
      * apply aget_overflow. rewrite repeat_length. lia.
      * now apply aget_repeat.
    + lia.
    + intros v Hv Hm. elim Hm. auto.
    + intros u v Hu _ _ Hm. elim Hm. auto.
    + intros i Hi. lia.
  - intros k [[[[[n2p oc] m] al] un] cc] Hk I. pose proof I as J. destruct I as [I1 I2 I3 I4 I5 I6 I7 I8 I9 I10 I11].
    simpl fst in *. simpl snd in *. subst al.
    wp1. wp1; [lia|]. pose proof (lo_lt k ltac:(lia)) as Hleaf.
    pose proof (lo_at _ _ _ _ _ _ _ LO a k ltac:(lia) ltac:(lia)) as Hlv.
    set (leaf := ls.[k]) in *.
    assert (Hsl : slab leaf) by (split; [auto|lia]).
    wp1. wp1; [lia|]. destruct (Z.eqb_spec m.[leaf] 0) as [E0|E0].
    2:{ wp1. destruct J as [J1 J2 J3 J4 J5 J6 J7 J8 J9 J10 J11]. constructor; auto; cbn [fst snd] in *.
      - lia.
      - intros i Hi. destruct (Nat.eq_dec i k) as [->|]; [auto|]. apply J11. lia. }
    wp1. apply (dfs_wp n Lp Li W leaf m []); auto. intros out m1 clash [D1 D2 D3 D4 D5 D6 D7 D8 (new & Dc & D9 & D10)].
    simpl in Dc. subst clash. cbv iota.
    (* everything found lies in the slab *)
    assert (Hout : forall u, In u out -> slab u).
    { intros u Hu. destruct (D3 u Hu) as [Hun Hu0].
      assert (Hge : a <= n2l.[u]).
      { apply (D8 (fun x => a <= n2l.[x])); [lia| |auto]. intros x y Hx Hxy. apply (lo_edge _ _ _ _ _ _ _ LO) in Hxy. lia. }
      split; [auto|]. split; [auto|]. destruct (le_lt_dec b n2l.[u]) as [L|L]; [|auto]. exfalso.
      rewrite I8 in Hu0 by (auto; unfold slab; lia). rewrite H5 in Hu0 by auto. lia. }
    assert (Hnew : forall v, In v new -> slab v /\ m.[v] = (-1)%Z /\ exists u, In u out /\ edge n Lp Li u v).
    { intros v Hv. destruct (D9 v Hv) as (A & u & B & C). destruct (wf_edge_lt n Lp Li W u v C) as [_ Hvn].
      pose proof (lo_edge _ _ _ _ _ _ _ LO u v C). destruct (Hout u B) as (_ & Hu1 & _).
      splits; eauto. split; [auto|]. split; [lia|]. destruct (le_lt_dec b n2l.[v]) as [L|L]; auto. exfalso.
      rewrite I8 in A by (auto; unfold slab; lia). rewrite H5 in A by auto. lia. }
    (* a slab successor of a found node is found or met *)
    assert (Hsucc : forall u v, In u out -> edge n Lp Li u v -> slab v -> In v out \/ In v new).
    { intros u v Hu He Hv. destruct (D7 u v Hu He) as [A|A]; auto. right. apply (D10 u); auto.
      pose proof (lo_edge _ _ _ _ _ _ _ LO u v He). destruct (Hout u Hu) as (_ & Hu1 & _).
      destruct (I7 v Hv) as [B|B]; [contradiction|]. rewrite B. now replace (n2l.[v] =? a) with false by lia. }
    wp1. apply make_unique_wp; [apply I5| |].
    { intros v Hv. destruct (Hnew v Hv) as (A & B & _). destruct (I9 v A ltac:(lia)) as (c & C & D). destruct A.
      split; [lia|]. exists c. split; auto. lia. }
    intros mn l' un' U1 U2 U3 U4 U5 U6. cbv iota.
    (* the common end: all found nodes get part c *)
    assert (Fin : forall n2p1 c cc', length n2p1 = n -> c < n -> c < cc' -> cc' <= S k - lp.[a] ->
       (forall v, slab v -> m.[v] <> 0%Z -> exists c', n2p1.[v] = Some c' /\ c' < cc') ->
       (forall u v, slab u -> slab v -> edge n Lp Li u v -> m.[u] <> 0%Z -> n2p1.[v] = n2p1.[u]) ->
       (forall v, In v new -> n2p1.[v] = Some c) ->
       wp (number_nodes add n2l nodeCost a c out n2p1 oc m1) (fun '(n2p', oc', m') =>
         comp_inv m00 (S k) (n2p', oc', m', [], un', cc'))).
    { intros n2p1 c cc' F1 F2 F3 F4 F5 F6 F7.
      apply (number_nodes_wp add n); auto; try lia. { intros v Hv. now apply D3. }
      intros n2p' oc' m' N1 N2 N3 N4 N5 N6 N7.
      assert (Mk : forall v, v < n -> m'.[v] <> 0%Z <-> In v out \/ m.[v] <> 0%Z).
      { intros v Hv. destruct (in_dec Nat.eq_dec v out) as [Hi|Hi].
        - split; auto. intros _. destruct (Nat.eq_dec n2l.[v] a) as [Ea|Ea].
          + rewrite N7, D5 by auto. lia.
          + rewrite N6 by auto. lia.
        - rewrite N7, D6 by auto. tauto. }
      assert (Hvn : forall v, slab v -> v < n) by (intros v [? _]; auto).
      constructor; cbn [fst snd]; auto.
      - rewrite N2. auto.
      - split; [lia|auto].
      - intros v Hv. destruct (in_dec Nat.eq_dec v out) as [Hi|Hi].
        + right. destruct (Nat.eqb_spec n2l.[v] a) as [Ea|Ea].
          * rewrite N7 by auto. now apply D5.
          * apply N6; auto.
        + rewrite N7, D6 by auto. auto.
      - intros v Hv Hns. assert (~ In v out) by (intros C; apply Hns; auto). rewrite N7, D6 by auto. auto.
      - intros v Hv Hm. apply Mk in Hm; auto. destruct (in_dec Nat.eq_dec v out) as [Hi|Hi].
        + exists c. split; auto.
        + destruct Hm as [Hm|Hm]; [contradiction|]. rewrite N5 by auto. auto.
      - intros u v Hu Hv He Hm. apply Mk in Hm; auto. destruct (in_dec Nat.eq_dec u out) as [Hi|Hi].
        + destruct (Hsucc u v Hi He Hv) as [A|A].
          * split; [apply Mk; auto|]. rewrite !N4; auto.
          * destruct (Hnew v A) as (_ & Hm1 & _). split; [apply Mk; auto; right; lia|].
            assert (~ In v out) by (intros C; destruct (D3 v C); lia).
            rewrite (N4 u), (N5 v) by auto. auto.
        + destruct Hm as [Hm|Hm]; [contradiction|]. destruct (I10 u v Hu Hv He Hm) as [A _].
          split; [apply Mk; auto|]. assert (~ In v out) by (intros C; destruct (D3 v C); contradiction).
          rewrite !N5 by auto. apply F6; auto.
      - intros i Hi. pose proof (lo_lt i ltac:(lia)) as Hlt. apply Mk; auto. destruct (Nat.eq_dec i k) as [->|]; auto.
        right. apply I11. lia. }
    destruct mn as [mn|].
    + assert (Hne : new <> []) by (intros ->; destruct (U5 eq_refl); discriminate).
      destruct (U6 Hne) as (m' & x & Em & Hx & Ex & _). inversion Em; subst m'. clear Em.
      destruct (Hnew x Hx) as (Sx & Mx & _). destruct (I9 x Sx ltac:(lia)) as (c & Ec & Hc).
      assert (c = mn) by congruence. subst c.
      wp1. apply alias_parts_wp; auto.
      { intros y Hy. apply U3 in Hy. destruct (Hnew y Hy) as (Sy & My & _). destruct (I9 y Sy ltac:(lia)) as (c & C & _).
        destruct Sy. split; auto. congruence. }
      intros n2p1 A1 A2 A3.
      assert (Dec : forall v, In n2p.[v] (map (aget n2p) l') \/ ~ In n2p.[v] (map (aget n2p) l')).
      { intros v. destruct (in_dec (fun x y : option nat => ltac:(decide equality; apply Nat.eq_dec)) n2p.[v] (map (aget n2p) l')); auto. }
      wp1. eapply wp_mono; [apply (Fin n2p1 mn cc)|]; auto; try lia.
      * intros v Hv Hm. destruct (Dec v) as [Hd|Hd].
        -- rewrite A2 by (auto; apply Hv). eauto.
        -- rewrite A3 by (auto; apply Hv). auto.
      * intros u v Hu Hv He Hm. destruct (I10 u v Hu Hv He Hm) as [_ B]. destruct (Dec v) as [Hd|Hd].
        -- rewrite (A2 v), (A2 u); auto; try apply Hu; try apply Hv. now rewrite <- B.
        -- rewrite (A3 v), (A3 u); auto; try apply Hu; try apply Hv. now rewrite <- B.
      * intros v Hv. destruct (Hnew v Hv) as (Sv & _). apply A2; [apply Sv|]. destruct (U4 v Hv) as (y & Hy & Ey).
        rewrite <- Ey. now apply in_map.
      * intros [[n2p' oc'] m'] Hc'. wp1. exact Hc'.
    + assert (Hnil : new = []).
      { destruct new as [|y t]; auto. destruct (U6 ltac:(discriminate)) as (m' & x & Em & _). discriminate. }
      destruct (U5 Hnil) as [_ ->].
      wp1. eapply wp_mono; [apply (Fin n2p cc (S cc))|]; auto; try lia.
      * intros v Hv Hm. destruct (I9 v Hv Hm) as (c & C & D). exists c. split; auto.
      * intros u v Hu Hv He Hm. now apply I10.
      * rewrite Hnil. intros v [].
      * intros [[n2p' oc'] m'] Hc'. wp1. exact Hc'.
  - intros [[[[[n2p oc] m] al] un] cc] I. destruct I as [I1 I2 I3 I4 I5 I6 I7 I8 I9 I10 I11]. cbn [fst snd] in *. wp1.
    assert (All : forall d v, slab v -> n2l.[v] <= a + d -> m.[v] <> 0%Z).
    { induction d as [|d IH]; intros v Hv Hd; pose proof Hv as (Hvn & Hv1 & Hv2).
      - destruct (lo_in _ _ _ _ _ _ _ LO v Hvn) as (Hl & i & Hi & <-). apply I11.
        replace a with n2l.[ls.[i]] by lia. auto.
      - destruct (le_lt_dec n2l.[v] (a + d)) as [L|L]; [apply IH; auto|].
        destruct (lo_pred _ _ _ _ _ _ _ LO v Hvn ltac:(lia)) as (u & He & Eu).
        destruct (wf_edge_lt n Lp Li W u v He) as [Hun _].
        assert (Hu : slab u) by (split; [auto|lia]).
        apply (I10 u v); auto. apply IH; auto. lia. }
    apply HQ; auto.
    + intros v Hv. apply I9; auto. apply (All (n2l.[v])); auto. lia.
    + intros u v Hu Hv He. apply I10; auto. apply (All (n2l.[u])); auto. lia.
Qed.

End Comp.
End Slab.
