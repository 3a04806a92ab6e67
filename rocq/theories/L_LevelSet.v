(** Proofs about the level-set models. *)
From Verif Require Import Base Lib Spec M_LevelSet.
From Coq Require Import ZifyBool ZifyNat.

(** * Multiplicities and degrees *)

Definition mult (Lp Li : list nat) (u v : nat) : nat :=
  cnt Lp.[u] Lp.[S u] (fun k => Li.[k] =? v).

(** edges into [v] that are not removed: those whose source is not in [D] *)
Definition remdeg (n : nat) (Lp Li : list nat) (D : nat -> bool) (v : nat) : nat :=
  sum_r 0 n (fun u => if D u && negb (u =? v) then 0 else mult Lp Li u v).

Lemma cnt_columns n (Lp : list nat) p :
  Lp.[0] = 0 -> (forall i, i < n -> Lp.[i] <= Lp.[S i]) ->
  cnt 0 Lp.[n] p = sum_r 0 n (fun u => cnt Lp.[u] Lp.[S u] p).
Proof.
  intros H0 Hm. induction n as [|n IH].
  - rewrite H0. unfold cnt. rewrite !sum_r_nil by lia. auto.
  - rewrite sum_r_S by lia. rewrite <- IH by (intros; apply Hm; lia).
    apply cnt_split.
    + pose proof (mono_le (aget Lp) (S n) Hm 0 n ltac:(lia) ltac:(lia)). lia.
    + apply Hm. lia.
Qed.

Lemma sum_r_ge_two a b f i j : a <= i < b -> a <= j < b -> i <> j -> f i + f j <= sum_r a b f.
Proof.
  intros Hi Hj Hij. pose proof (sum_r_upd a b f i 0 Hi) as H.
  pose proof (sum_r_ge_one a b (fun k => if k =? i then 0 else f k) j Hj) as H1.
  simpl in H1. destruct (Nat.eqb_spec j i); lia.
Qed.

Section Graph.
Variables (n : nat) (Lp Li : list nat).
Hypothesis W : wf_csc n Lp Li.
Hypothesis D1 : one_diag n Lp Li.

Lemma mult_edge u v : u < n -> u <> v -> (0 < mult Lp Li u v <-> edge n Lp Li u v).
Proof.
  intros Hu Huv. unfold mult. split.
  - intros H. apply cnt_pos in H. destruct H as [k [Hk E]]. apply Nat.eqb_eq in E.
    split; [auto|split; auto]. exists k. auto.
  - intros (_ & [k [Hk E]] & _).
    pose proof (cnt_ge_one Lp.[u] Lp.[S u] (fun k => Li.[k] =? v) k Hk) as H.
    simpl in H. rewrite E, Nat.eqb_refl in H. specialize (H eq_refl). lia.
Qed.

Lemma mult_diag v : v < n -> mult Lp Li v v = 1.
Proof.
  intros Hv. destruct (D1 v Hv) as [k [[Hk E] Hu]]. unfold mult.
  apply (cnt_unique_one _ _ _ k); auto.
  - now apply Nat.eqb_eq.
  - intros j Hj Ej. apply Nat.eqb_eq in Ej. auto.
Qed.

Lemma remdeg_one_iff D v : v < n ->
  (remdeg n Lp Li D v = 1 <-> forall u, edge n Lp Li u v -> D u = true).
Proof.
  intros Hv. unfold remdeg. set (f := fun u => if D u && negb (u =? v) then 0 else mult Lp Li u v).
  assert (Fv : f v = 1).
  { unfold f. rewrite Nat.eqb_refl. simpl. rewrite andb_false_r. now apply mult_diag. }
  split.
  - intros H u Hu. pose proof Hu as (Hun & _ & Huv).
    pose proof (sum_r_ge_two 0 n f u v ltac:(lia) ltac:(lia) Huv) as G.
    destruct (D u) eqn:E; auto. exfalso.
    assert (0 < f u); [|lia].
    unfold f. rewrite E. simpl. apply mult_edge; auto.
  - intros H. pose proof (sum_r_upd 0 n f v 0 ltac:(lia)) as G. simpl in G.
    rewrite (sum_r_all_zero 0 n (fun i => if i =? v then 0 else f i)) in G; [lia|].
    intros u Hu. destruct (Nat.eqb_spec u v) as [|Huv]; auto.
    unfold f. destruct (Nat.eq_dec (mult Lp Li u v) 0) as [->|Hm].
    + now destruct (D u && _).
    + rewrite H by (apply mult_edge; auto; lia). destruct (Nat.eqb_spec u v); [lia|]. auto.
Qed.

Lemma remdeg_not_one D v : v < n -> remdeg n Lp Li D v <> 1 ->
  exists u, edge n Lp Li u v /\ D u = false.
Proof.
  intros Hv H. unfold remdeg in H. set (f := fun u => if D u && negb (u =? v) then 0 else mult Lp Li u v) in *.
  assert (Fv : f v = 1).
  { unfold f. rewrite Nat.eqb_refl. simpl. rewrite andb_false_r. now apply mult_diag. }
  pose proof (sum_r_upd 0 n f v 0 ltac:(lia)) as G. simpl in G.
  assert (P : 0 < sum_r 0 n (fun i => if i =? v then 0 else f i)) by lia.
  apply sum_r_pos in P. destruct P as [u [Hu Fu]]. destruct (Nat.eqb_spec u v) as [|Huv]; [lia|].
  exists u. unfold f in Fu. destruct (D u) eqn:E; simpl in Fu.
  - destruct (Nat.eqb_spec u v); simpl in Fu; lia.
  - split; auto. apply mult_edge; auto. lia.
Qed.

Lemma remdeg_ext D D' v : (forall u, u < n -> D u = D' u) -> remdeg n Lp Li D v = remdeg n Lp Li D' v.
Proof. intros H. apply sum_r_ext. intros u Hu. rewrite H by lia. auto. Qed.

(** removing one more source *)
Lemma remdeg_step D c v : c < n -> D c = false ->
  remdeg n Lp Li (fun u => D u || (u =? c)) v + (if c =? v then 0 else mult Lp Li c v)
  = remdeg n Lp Li D v.
Proof.
  intros Hc HD. unfold remdeg.
  pose proof (sum_r_upd 0 n (fun u => if D u && negb (u =? v) then 0 else mult Lp Li u v) c
                (if c =? v then mult Lp Li c v else 0) ltac:(lia)) as G.
  cbv beta in G. rewrite HD in G. simpl in G.
  rewrite (sum_r_ext 0 n _ (fun u => if u =? c then if c =? v then mult Lp Li c v else 0
     else if D u && negb (u =? v) then 0 else mult Lp Li u v)).
  - destruct (Nat.eqb_spec c v); lia.
  - intros u Hu. destruct (Nat.eqb_spec u c) as [->|Huc].
    + rewrite HD. simpl. now destruct (c =? v).
    + now rewrite orb_false_r.
Qed.

(** * The phases *)

Lemma init_degree_wp (Q : list Z -> Prop) :
  (forall deg, length deg = n ->
     (forall v, v < n -> deg.[v] = Z.of_nat (remdeg n Lp Li (fun _ => false) v)) -> Q deg) ->
  wp (init_degree n Lp Li) Q.
Proof.
  intros HQ. unfold init_degree. destruct W as (WL & W0 & Wm & WLi & Wlt).
  wp1. wp1; [lia|].
  apply (wp_for (fun i deg => length deg = n /\
     forall v, v < n -> deg.[v] = Z.of_nat (cnt 0 i (fun k => Li.[k] =? v)))).
  - lia.
  - split; [apply repeat_length|]. intros v Hv. rewrite aget_repeat by lia.
    rewrite cnt_all_false by lia. auto.
  - intros i deg Hi [HL Hd]. pose proof (Wlt i ltac:(lia)).
    wp1. wp1; [lia|]. wp1. wp1; [lia|]. wp1; [lia|].
    split; [now rewrite upd_length|]. intros v Hv. rewrite aget_upd by lia.
    rewrite cnt_S by lia. rewrite (Nat.eqb_sym v).
    destruct (Nat.eqb_spec Li.[i] v) as [E|E]; simpl.
    + rewrite Hd, E by lia. lia.
    + rewrite Hd by lia. lia.
  - intros deg [HL Hd]. apply HQ; auto. intros v Hv. rewrite Hd by auto. f_equal.
    unfold remdeg. simpl. now apply cnt_columns.
Qed.

Lemma remove_column_wp cc deg (Q : list Z -> Prop) :
  cc < n -> length deg = n ->
  (forall deg', length deg' = n ->
     (forall v, v < n -> deg'.[v] = (deg.[v] - Z.of_nat (if (cc =? v)%nat then 0%nat else mult Lp Li cc v))%Z) ->
     Q deg') ->
  wp (for_ Lp.[cc] Lp.[S cc] (fun j deg =>
      v <- rd Li j ;;
      if negb (v =? cc) then d <- rd deg v ;; wr deg v (d - 1)%Z else Ok deg) deg) Q.
Proof.
  intros Hc HL HQ.
  apply (wp_for (fun j deg' => length deg' = n /\
     forall v, v < n -> deg'.[v] =
       (deg.[v] - Z.of_nat (if (cc =? v)%nat then 0%nat else cnt Lp.[cc] j (fun k => (Li.[k] =? v)%nat)))%Z)).
  - apply W. lia.
  - split; auto. intros v Hv. rewrite cnt_all_false by lia. destruct (cc =? v); lia.
  - intros j deg' Hj [HL' Hd]. destruct (wf_col_lt n Lp Li W cc j Hc ltac:(lia)) as [Hj1 Hj2].
    pose proof (wf_Li_lt n Lp Li W j Hj2) as Hv.
    wp1. wp1; [lia|]. destruct (Nat.eqb_spec Li.[j] cc) as [E|E]; simpl.
    + split; auto. intros v Hvn. rewrite Hd, cnt_S by lia. f_equal. f_equal.
      destruct (Nat.eqb_spec cc v) as [|N]; auto.
      destruct (Nat.eqb_spec Li.[j] v); simpl; lia.
    + wp1. wp1; [lia|]. wp1; [lia|]. split; [now rewrite upd_length|].
      intros v Hvn. rewrite aget_upd by lia. rewrite cnt_S by lia.
      destruct (Nat.eqb_spec v Li.[j]) as [->|N].
      * rewrite Nat.eqb_refl. rewrite Hd by lia. destruct (Nat.eqb_spec cc Li.[j]); [lia|]. simpl. lia.
      * destruct (Nat.eqb_spec Li.[j] v) as [|_]; [lia|]. rewrite Hd by lia.
        destruct (cc =? v); simpl; lia.
  - intros deg' [HL' Hd]. apply HQ; auto.
Qed.

Lemma remove_edges_wp D lset lo hi deg (Q : list Z -> Prop) :
  lo <= hi -> hi <= length lset ->
  (forall k, lo <= k < hi -> lset.[k] < n /\ D lset.[k] = false) ->
  (forall k k', lo <= k < hi -> lo <= k' < hi -> lset.[k] = lset.[k'] -> k = k') ->
  length deg = n ->
  (forall v, v < n -> deg.[v] = Z.of_nat (remdeg n Lp Li D v)) ->
  (forall deg' D', length deg' = n ->
     (forall v, v < n -> deg'.[v] = Z.of_nat (remdeg n Lp Li D' v)) ->
     (forall v, D' v = true <-> D v = true \/ exists k, lo <= k < hi /\ lset.[k] = v) -> Q deg') ->
  wp (remove_edges Lp Li lset lo hi deg) Q.
Proof.
  intros Hlh Hlen Hset Hinj HL Hd HQ. unfold remove_edges.
  apply (wp_for (fun l deg' => length deg' = n /\ exists D',
     (forall v, v < n -> deg'.[v] = Z.of_nat (remdeg n Lp Li D' v)) /\
     (forall v, D' v = true <-> D v = true \/ exists k, lo <= k < l /\ lset.[k] = v))); auto.
  - split; auto. exists D. split; auto. intros v. split; auto. intros [|[k [Hk _]]]; auto. lia.
  - intros l deg' Hl [HL' [D' [Hd' HD']]]. destruct (Hset l Hl) as [Hc HDc].
    pose proof (wf_Lp_len n Lp Li W).
    wp1. wp1; [lia|]. wp1. wp1; [lia|]. wp1. wp1; [lia|].
    apply remove_column_wp; auto.
    intros deg'' HL'' Hd''. split; auto.
    assert (HDc' : D' lset.[l] = false).
    { destruct (D' lset.[l]) eqn:E; auto. apply HD' in E. destruct E as [E|[k [Hk E]]].
      - congruence.
      - apply Hinj in E; lia. }
    exists (fun u => D' u || (u =? lset.[l])). split.
    + intros v Hv. rewrite Hd'', Hd' by auto.
      rewrite <- (remdeg_step D' lset.[l] v Hc HDc'). lia.
    + intros v. rewrite orb_true_iff, Nat.eqb_eq, HD'. split.
      * intros [[H1|[k [Hk E]]]|E]; auto.
        -- right. exists k. split; [lia|auto].
        -- right. exists l. split; [lia|auto].
      * intros [H1|[k [Hk E]]]; auto. destruct (Nat.eq_dec k l) as [->|]; auto.
        left. right. exists k. split; [lia|auto].
  - intros deg' [HL' [D' [Hd' HD']]]. apply (HQ deg' D'); auto.
Qed.

Lemma advance_begin_wp deg b (Q : nat -> Prop) :
  length deg = n -> b < n ->
  (forall b', b <= b' <= n -> (forall i, b <= i < b' -> deg.[i] = 1%Z) ->
     (b' < n -> deg.[b'] <> 1%Z) -> Q b') ->
  wp (advance_begin n deg b) Q.
Proof.
  intros HL Hb HQ. unfold advance_begin. wp1.
  apply (wp_while (fun s => b <= fst s <= n /\ (forall i, b <= i < fst s -> deg.[i] = 1%Z) /\
                    (snd s = false -> fst s < n) /\ (snd s = true -> fst s = n))
                  (fun s => n - fst s)).
  - simpl. split; [lia|]. split; [intros; lia|]. split; [auto|discriminate].
  - simpl. lia.
  - intros [b' brk]; simpl. intros (H1 & H2 & H3 & H4). destruct brk; simpl.
    + apply HQ; auto. intros. specialize (H4 eq_refl). lia.
    + specialize (H3 eq_refl). wp1. wp1; [lia|]. apply wp_ret.
      destruct (Z.eqb_spec deg.[b'] 1) as [E|E]; simpl.
      * split; [|lia]. split; [lia|]. split.
        -- intros i Hi. destruct (Nat.eq_dec i b') as [->|]; auto. apply H2. lia.
        -- destruct (Nat.leb_spec n (S b')); split; intros; try discriminate; lia.
      * apply HQ; auto.
Qed.

Lemma retreat_end_wp deg b e1 (Q : nat -> Prop) :
  length deg = n -> 0 < e1 <= n -> (b < n -> deg.[b] <> 1%Z) ->
  (forall e', 0 < e' <= e1 -> (forall i, e' <= i < e1 -> deg.[i] = 1%Z) -> Q e') ->
  wp (retreat_end n deg b e1) Q.
Proof.
  intros HL He Hb HQ. unfold retreat_end.
  apply (wp_while (fun e => 0 < e <= e1 /\ (forall i, e <= i < e1 -> deg.[i] = 1%Z)) (fun e => e)).
  - split; [lia|]. intros; lia.
  - lia.
  - intros e [H1 H2]. destruct e as [|e]; [lia|].
    wp1. wp1; [lia|]. apply wp_ret.
    destruct (Z.eqb_spec deg.[e] 1) as [E|E]; simpl.
    + destruct (Nat.leb_spec b e); simpl.
      * assert (e <> b) by (intros ->; apply Hb; auto; lia).
        split; [|lia]. split; [lia|]. intros i Hi. destruct (Nat.eq_dec i e) as [->|]; auto.
        apply H2. lia.
      * apply HQ; auto.
    + apply HQ; auto.
Qed.

(** ** The scan *)

(** [vis] marks exactly the nodes listed in [lset] below [col] *)
Definition listed (vis : list bool) (lset : list nat) (col : nat) : Prop :=
  length vis = n /\ n <= length lset /\ col <= n /\
  (forall k, k < col -> lset.[k] < n) /\
  (forall k k', k < col -> k' < col -> lset.[k] = lset.[k'] -> k = k') /\
  (forall v, v < n -> (vis.[v] = true <-> exists k, k < col /\ lset.[k] = v)).

Lemma listed_room vis lset col v : listed vis lset col -> v < n -> vis.[v] = false -> col < n.
Proof.
  intros (H1 & H2 & H3 & H4 & H5 & H6) Hv Hf.
  destruct (Nat.eq_dec col n) as [E|]; [|lia]. subst col. exfalso.
  destruct (inj_onto n (aget lset) H4 H5 v Hv) as [k [Hk E]].
  assert (vis.[v] = true) by (apply H6; auto; eauto). congruence.
Qed.

Lemma scan_level_wp b e1 cur deg vis lset n2l col (Q : _ -> Prop) :
  b <= e1 -> e1 <= n -> length deg = n -> listed vis lset col -> n <= length n2l ->
  (forall vis' lset' n2l' col', listed vis' lset' col' -> length lset' = length lset ->
     length n2l' = length n2l -> col <= col' ->
     (forall k, k < col -> lset'.[k] = lset.[k]) ->
     (forall k, col <= k < col' -> vis.[lset'.[k]] = false /\ deg.[lset'.[k]] = 1%Z /\
                                   n2l'.[lset'.[k]] = cur /\ b <= lset'.[k] < e1) ->
     (forall v, v < n -> vis'.[v] = true <-> vis.[v] = true \/ (b <= v < e1 /\ deg.[v] = 1%Z)) ->
     (forall v, v < n -> vis.[v] = true -> n2l'.[v] = n2l.[v]) ->
     (forall k k', col <= k -> k < k' -> k' < col' -> lset'.[k] < lset'.[k']) ->
     Q (vis', lset', n2l', col')) ->
  wp (scan_level b e1 cur deg (vis, lset, n2l, col)) Q.
Proof.
  intros Hb He HLd Hls Hn2l HQ. unfold scan_level.
  apply (wp_for (fun i st => let '(vis', lset', n2l', col') := st in
     listed vis' lset' col' /\ length lset' = length lset /\ length n2l' = length n2l /\ col <= col' /\
     (forall k, k < col -> lset'.[k] = lset.[k]) /\
     (forall k, col <= k < col' -> vis.[lset'.[k]] = false /\ deg.[lset'.[k]] = 1%Z /\
                                   n2l'.[lset'.[k]] = cur /\ b <= lset'.[k] < i) /\
     (forall v, v < n -> vis'.[v] = true <-> vis.[v] = true \/ (b <= v < i /\ deg.[v] = 1%Z)) /\
     (forall v, v < n -> vis.[v] = true -> n2l'.[v] = n2l.[v]) /\
     (forall k k', col <= k -> k < k' -> k' < col' -> lset'.[k] < lset'.[k']))); auto.
  - repeat (split; auto); try (intros; lia).
  - intros i [[[vis' lset'] n2l'] col'] Hi (L & HL1 & HL2 & Hc & Hpre & Hnew & Hvis & Hkeep & Hinc).
    pose proof L as (V1 & V2 & V3 & V4 & V5 & V6).
    wp1. wp1; [lia|]. wp1. wp1; [lia|].
    destruct (Z.eqb_spec deg.[i] 1) as [Ed|Ed]; simpl.
    2:{ splits; auto.
        - intros k Hk. destruct (Hnew k Hk) as (?&?&?&?). splits; auto; lia.
        - intros v Hvn. rewrite Hvis by auto. split; (intros [Hv|[Hv1 Hv2]]; [auto|]).
          + right; split; auto; lia.
          + right. split; auto. destruct (Nat.eq_dec v i) as [->|]; [contradiction|lia]. }
    destruct (vis'.[i]) eqn:Ev; simpl.
    + splits; auto.
      * intros k Hk. destruct (Hnew k Hk) as (?&?&?&?). splits; auto; lia.
      * intros v Hvn. split.
        -- intros Hv. apply Hvis in Hv; auto. destruct Hv as [|[? ?]]; auto. right; split; auto; lia.
        -- intros [Hv|[Hv1 Hv2]]; [apply Hvis; auto|]. destruct (Nat.eq_dec v i) as [->|]; auto.
           apply Hvis; auto. right. split; auto. lia.
    + pose proof (listed_room _ _ _ i L ltac:(lia) Ev) as Hroom.
      assert (Hvi : vis.[i] = false).
      { destruct (vis.[i]) eqn:E; auto. rewrite (proj2 (Hvis i ltac:(lia)) ltac:(auto)) in Ev. discriminate. }
      wp1. wp1; [lia|]. wp1. wp1; [lia|]. wp1. wp1; [lia|]. apply wp_ret.
      assert (Hne : forall k, k < col' -> lset'.[k] <> i).
      { intros k Hk E. rewrite (proj2 (V6 i ltac:(lia)) ltac:(eauto)) in Ev. discriminate. }
      split; [|split; [|split; [|split; [|split; [|split; [|split; [|split]]]]]]].
      * unfold listed. rewrite !upd_length. splits; auto; try lia.
        -- intros k Hk. rewrite aget_upd by lia. destruct (Nat.eqb_spec k col'); [lia|]. apply V4. lia.
        -- intros k k' Hk Hk'. rewrite !aget_upd by lia.
           destruct (Nat.eqb_spec k col'), (Nat.eqb_spec k' col'); intros E; try lia.
           ++ elim (Hne k'); [lia|auto].
           ++ elim (Hne k); [lia|auto].
           ++ apply V5; auto; lia.
        -- intros v Hvn. split.
           ++ rewrite aget_upd by lia. destruct (Nat.eqb_spec v i) as [->|N].
              ** intros _. exists col'. split; [lia|]. rewrite aget_upd_eq by lia. auto.
              ** intros Hv. apply V6 in Hv; auto. destruct Hv as [k [Hk E]]. exists k. split; [lia|].
                 rewrite aget_upd_ne by lia. auto.
           ++ intros [k [Hk E]]. rewrite aget_upd in E by lia. rewrite aget_upd by lia.
              destruct (Nat.eqb_spec v i) as [->|N]; auto.
              destruct (Nat.eqb_spec k col'); [lia|]. apply V6; auto. exists k. split; [lia|auto].
      * now rewrite upd_length.
      * now rewrite upd_length.
      * lia.
      * intros k Hk. rewrite aget_upd_ne by lia. auto.
      * intros k Hk. rewrite (aget_upd lset') by lia. destruct (Nat.eqb_spec k col') as [->|N].
        -- rewrite aget_upd_eq by lia. repeat split; auto; lia.
        -- destruct (Hnew k ltac:(lia)) as (G1&G2&G3&G4). repeat split; auto; try lia.
           rewrite aget_upd_ne; auto. apply not_eq_sym. apply Hne. lia.
      * intros v Hv. rewrite aget_upd by lia. destruct (Nat.eqb_spec v i) as [->|N].
        -- split; auto. intros _. right. split; auto. lia.
        -- rewrite Hvis by auto. split; (intros [|[H1 H2]]; [auto|right; split; auto; lia]).
      * intros v Hv Hv1. destruct (Nat.eq_dec v i) as [->|N]; [congruence|].
        rewrite aget_upd_ne by lia. auto.
      * intros k k' Hk Hkk Hk'. rewrite !aget_upd by lia.
        destruct (Nat.eqb_spec k col'); [lia|]. destruct (Nat.eqb_spec k' col') as [->|].
        -- destruct (Hnew k ltac:(lia)) as (_ & _ & _ & ?). lia.
        -- apply Hinc; lia.
  - intros [[[vis' lset'] n2l'] col'] (L & HL1 & HL2 & Hc & Hpre & Hnew & Hvis & Hkeep & Hinc).
    apply HQ; auto.
Qed.
(** ** The outer loop *)

Let E := edge n Lp Li.

Definition LInv (s : ls_state) : Prop :=
  let '(mkLS b e1 c col deg vis ptr lset n2l fl) := s in
  listed vis lset col /\ length deg = n /\
  (forall v, v < n -> deg.[v] = Z.of_nat (remdeg n Lp Li (aget vis) v)) /\
  n <= length n2l /\ n <= length ptr /\
  b <= n /\ 0 < e1 <= n /\
  (forall i, i < n -> i < b \/ e1 <= i -> vis.[i] = true) /\
  ptr.[0] = 0 /\ (forall l, l < c -> ptr.[l] <= ptr.[S l]) /\ ptr.[c] = col /\
  (b < e1 -> vis.[b] = false) /\ c < n /\
  (forall l k, l < c -> ptr.[l] <= k < ptr.[S l] ->
     n2l.[lset.[k]] = l /\ depth_is E lset.[k] l) /\
  (forall v, v < n -> vis.[v] = false -> exists u, u < n /\ chain E u v c) /\
  (forall u v, E u v -> vis.[v] = true -> vis.[u] = true) /\
  (c = 0 \/ exists u v, u < n /\ chain E u v (c - 1)) /\
  (forall l k k', l < c -> ptr.[l] <= k -> k < k' -> k' < ptr.[S l] -> lset.[k] < lset.[k']).

Definition LFail : Prop := exists u v, u < n /\ chain E u v (n - 1).

Lemma ls_round_wp s :
  LInv s -> ls_begin s < ls_end1 s ->
  wp (ls_round n Lp Li s) (fun s' =>
     (ls_fail s' = true /\ LFail /\ 0 < n) \/ (ls_fail s' = false /\ LInv s' /\ ls_cur s' = S (ls_cur s))).
Proof.
  destruct s as [b e1 c col deg vis ptr lset n2l fl]. simpl.
  intros (L & HLd & Hdeg & Hn2l & Hptr & Hb & He & Hout & Hp0 & Hpm & Hpc & Hvb & Hcn & Hlev & Hun & Hcl & Hne & Hsrt) Hbe.
  unfold ls_round. simpl.
  wp1. apply scan_level_wp; auto; try lia.
  intros vis' lset' n2l' col' L' HLs HLn Hcol Hpre Hnew Hvis Hkeep Hinc.
  pose proof L as (V1 & V2 & V3 & V4 & V5 & V6).
  pose proof L' as (V1' & V2' & V3' & V4' & V5' & V6').
  specialize (Hvb Hbe).
  destruct (Nat.leb_spec n (S c)) as [Hf|Hf].
  { apply wp_ret. left. simpl. split; auto. split; [|lia].
    destruct (Hun b ltac:(lia) Hvb) as [u [Hu Hch]]. exists u, b. split; auto.
    now replace (n - 1) with c by lia. }
  assert (Hpv : forall u, u < n -> vis.[u] = true -> exists l k, l < c /\ k < col /\ ptr.[l] <= k < ptr.[S l] /\ lset.[k] = u).
  { intros u Hu Hv. apply V6 in Hv; auto. destruct Hv as [k [Hk Eu]].
    destruct (bucket_exists (aget ptr) c k) as [l [Hl Hlk]]; [lia|lia|]. eauto 10. }
  assert (Hdeg1 : forall v, v < n -> vis'.[v] = true -> deg.[v] = 1%Z).
  { intros v Hv Hv'. apply Hvis in Hv'; auto. destruct Hv' as [Hv'|[_ ?]]; auto.
    rewrite Hdeg by auto. change 1%Z with (Z.of_nat 1). f_equal. apply remdeg_one_iff; auto.
    intros u Hu. apply (Hcl u v); auto. }
  assert (Hpreds : forall v, v < n -> deg.[v] = 1%Z -> forall u, E u v -> vis.[u] = true).
  { intros v Hv H1. rewrite Hdeg in H1 by auto.
    apply (remdeg_one_iff (aget vis) v Hv). lia. }
  assert (Hvsub : forall v, v < n -> vis.[v] = true -> vis'.[v] = true) by (intros; apply Hvis; auto).
  wp1. wp1; [lia|].
  wp1. apply advance_begin_wp; auto; [lia|]. intros b' Hb' Hbd Hbn.
  wp1. apply retreat_end_wp; auto. intros e' He' Hed.
  wp1. wp1; [rewrite upd_length; lia|]. wp1. wp1; [rewrite upd_length; lia|].
  rewrite aget_upd_eq by lia. rewrite aget_upd_ne by lia. rewrite Nat.sub_0_r, Hpc.
  wp1. apply (remove_edges_wp (aget vis)); auto; try lia.
  { intros k Hk. split; [apply V4'; lia|]. now apply Hnew. }
  { intros k k' Hk Hk'. apply V5'; lia. }
  intros deg' D' HLd' Hdeg' HD'. apply wp_ret. right. simpl. split; auto. split; auto.
  assert (HDv : forall u, u < n -> D' u = vis'.[u]).
  { intros u Hu. destruct (vis'.[u]) eqn:Ev.
    - apply HD'. apply V6' in Ev; auto. destruct Ev as [k [Hk Ek]].
      destruct (le_lt_dec col k).
      + right. exists k. split; [lia|auto].
      + left. apply V6; auto. exists k. split; auto. rewrite <- Ek. symmetry. auto.
    - destruct (D' u) eqn:Ed; auto. apply HD' in Ed. rewrite <- Ev. symmetry.
      destruct Ed as [Ed|[k [Hk Ek]]]; [auto|]. apply V6'; auto. exists k. split; [lia|auto]. }
  splits; auto; try lia.
  - intros v Hv. rewrite Hdeg' by auto. f_equal. now apply remdeg_ext.
  - rewrite upd_length. lia.
  - intros i Hi Hor. destruct (le_lt_dec b i) as [Hbi|Hbi]; [|auto].
    destruct (le_lt_dec e1 i) as [Hei|Hei]; [auto|].
    apply Hvis; auto. right. split; [lia|]. destruct Hor; [apply Hbd|apply Hed]; lia.
  - rewrite aget_upd_ne by lia. auto.
  - intros l Hl. rewrite !aget_upd by lia. destruct (Nat.eqb_spec l (S c)); [lia|].
    destruct (Nat.eqb_spec (S l) (S c)) as [El|]; [|apply Hpm; lia].
    injection El as ->. lia.
  - rewrite aget_upd_eq by lia. auto.
  - intros Hbe'. destruct (vis'.[b']) eqn:Ev; auto. exfalso.
    apply (Hbn ltac:(lia)). apply Hdeg1; auto. lia.
  - intros l k Hl. rewrite !aget_upd by lia. destruct (Nat.eqb_spec l (S c)); [lia|].
    destruct (Nat.eqb_spec (S l) (S c)) as [El|].
    + injection El as ->. rewrite Hpc. intros Hk.
      destruct (Hnew k Hk) as (G1 & G2 & G3 & G4). split; auto.
      assert (Hkn : lset'.[k] < n) by (apply V4'; lia).
      split.
      * destruct (Hun lset'.[k] Hkn G1) as [u [Hu Hch]]. eauto.
      * intros u j Hch. inversion Hch as [|? w ? j' Hch' Hew]; subst; [lia|].
        assert (Hw : vis.[w] = true) by (apply (Hpreds lset'.[k]); auto).
        assert (Hwn : w < n) by (apply (wf_edge_lt n Lp Li W w lset'.[k]); auto).
        destruct (Hpv w Hwn Hw) as (lw & kw & Hlw & Hkw & Hkk & Ew).
        destruct (Hlev lw kw Hlw Hkk) as [_ [_ Hdw]]. rewrite Ew in Hdw.
        specialize (Hdw u j' Hch'). lia.
    + intros Hk. assert (Hkc : k < col).
      { pose proof (mono_le (aget ptr) c Hpm (S l) c ltac:(lia) ltac:(lia)). lia. }
      rewrite Hpre by auto. destruct (Hlev l k ltac:(lia) Hk) as [G1 G2]. split; auto.
      rewrite Hkeep; auto. apply V6; auto. eauto.
  - intros v Hv Hv'. assert (Hvf : vis.[v] = false).
    { destruct (vis.[v]) eqn:Ev; auto. rewrite Hvsub in Hv'; auto. }
    assert (Hd1 : deg.[v] <> 1%Z).
    { intros H1. destruct (le_lt_dec b v) as [Hbi|Hbi]; [|rewrite Hout in Hvf; auto; discriminate].
      destruct (le_lt_dec e1 v) as [Hei|Hei]; [rewrite Hout in Hvf; auto; discriminate|].
      rewrite (proj2 (Hvis v Hv)) in Hv'; [discriminate|auto]. }
    rewrite Hdeg in Hd1 by auto.
    destruct (remdeg_not_one (aget vis) v Hv ltac:(lia)) as [u [Hu1 Hu2]].
    destruct (Hun u) as [w [Hw Hch]]; auto; [apply Hu1|].
    exists w. split; auto. econstructor; eauto.
  - intros u v Hu Hv. pose proof (wf_edge_lt n Lp Li W u v Hu) as [Hun' Hvn].
    apply Hvsub; auto. apply Hvis in Hv; auto. destruct Hv as [Hv|[_ Hv]]; eauto.
  - right. simpl. rewrite Nat.sub_0_r. destruct (Hun b ltac:(lia) Hvb) as [u [Hu Hch]]. eauto.
  - intros l k k' Hl. rewrite !aget_upd by lia. destruct (Nat.eqb_spec l (S c)); [lia|].
    destruct (Nat.eqb_spec (S l) (S c)) as [El|].
    + injection El as ->. rewrite Hpc. intros. apply Hinc; lia.
    + intros. pose proof (mono_le (aget ptr) c Hpm (S l) c ltac:(lia) ltac:(lia)).
      rewrite !Hpre by lia. apply (Hsrt l); lia.
Qed.

(** the level-set result: [k] levels, node at level = depth *)
Definition levels_exact (k : nat) (ptr lset n2l : list nat) : Prop :=
  level_partition n k ptr lset /\ (k < n \/ (n = 0 /\ k = 0)) /\
  (forall l i, l < k -> ptr.[l] <= i < ptr.[S l] -> n2l.[lset.[i]] = l /\ depth_is E lset.[i] l) /\
  (0 < n -> 0 < k /\ exists u v, u < n /\ chain E u v (k - 1)) /\
  (forall l i i', l < k -> ptr.[l] <= i -> i < i' -> i' < ptr.[S l] -> lset.[i] < lset.[i']).

Lemma build_levelSet_wp levelPtr levelSet n2l :
  n <= length levelPtr -> n <= length levelSet -> n <= length n2l -> levelPtr.[0] = 0 ->
  wp (build_levelSet_CSC n Lp Li levelPtr levelSet n2l) (fun r =>
    let '(k, (ptr, lset, n2l')) := r in
    (k = (-1)%Z /\ 0 < n /\ LFail) \/
    ((0 <= k)%Z /\ levels_exact (Z.to_nat k) ptr lset n2l')).
Proof.
  intros HP HS HN H0. unfold build_levelSet_CSC.
  wp1. apply init_degree_wp. intros deg HLd Hdeg. wp1.
  destruct (Nat.eq_dec n 0) as [Hn0|Hn0].
  { assert (E0 : n = 0) by auto. simpl. rewrite E0. simpl. right. split; [lia|].
    unfold levels_exact, level_partition. rewrite E0. splits; auto; try (intros; lia). }
  apply (wp_while (fun s => if ls_fail s then LFail else LInv s)
                  (fun s => if ls_fail s then 0 else n - ls_cur s)).
  - simpl. splits; auto; try lia.
    + unfold listed. rewrite repeat_length. splits; auto; try lia.
      intros v Hv. rewrite aget_repeat by auto. split; [discriminate|]. intros [k [Hk _]]. lia.
    + intros v Hv. rewrite Hdeg by auto. f_equal. apply remdeg_ext. intros u Hu.
      now rewrite aget_repeat.
    + intros _. rewrite aget_repeat; auto. lia.
    + intros v Hv _. exists v. split; auto. constructor.
    + intros u v Hu. rewrite aget_repeat; [discriminate|]. now apply (wf_edge_lt n Lp Li W) in Hu.
  - simpl. lia.
  - intros s HI. apply wp_ret. destruct (ls_fail s) eqn:Ef; simpl.
    + left. splits; auto. lia.
    + destruct (Nat.ltb_spec (ls_begin s) (ls_end1 s)) as [Hbe|Hbe].
      * eapply wp_mono; [apply ls_round_wp; auto|].
        assert (ls_cur s < n) by (destruct s; apply HI).
        intros s' [(F1 & F2 & F3)|(F1 & F2 & F3)]; rewrite F1; split; auto; lia.
      * destruct s as [b e1 c col dg vis ptr lset n2l' fl]. simpl in *.
        destruct HI as (L & HLd' & Hdeg' & Hn2l & Hptr & Hb & He & Hout & Hp0 & Hpm & Hpc & Hvb & Hcn & Hlev & Hun & Hcl & Hne & Hsrt).
        right. split; [lia|]. rewrite Nat2Z.id.
        pose proof L as (V1 & V2 & V3 & V4 & V5 & V6).
        assert (Hall : forall v, v < n -> exists k, k < col /\ lset.[k] = v).
        { intros v Hv. apply V6; auto. apply Hout; auto. lia. }
        assert (Ecol : col = n).
        { assert (n <= length (map (aget lset) (seq 0 col))).
          { rewrite <- (seq_length n 0) at 1. apply NoDup_incl_length; [apply seq_NoDup|].
            intros v Hv. apply in_seq in Hv. destruct (Hall v ltac:(lia)) as [k [Hk Ek]].
            apply in_map_iff. exists k. split; auto. apply in_seq. lia. }
          rewrite map_length, seq_length in H. lia. }
        assert (Hc0 : c <> 0).
        { intros ->. rewrite Hp0 in Hpc. lia. }
        unfold levels_exact, level_partition. subst col. splits; auto; try lia.
        -- intros i Hi. apply V4. lia.
        -- intros i j Hi Hj. apply V5; lia.
        -- intros _. split; [lia|]. destruct Hne as [|Hne]; [lia|auto].
Qed.

End Graph.
