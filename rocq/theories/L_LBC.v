(** Proofs about bin packing and height partitioning. *)
From Verif Require Import Base Lib Lib2 Spec M_LBC.
From Coq Require Import ZifyBool ZifyNat.

(** * Bin packing *)

Lemma perm_index {A} `{Dflt A} (l l' : list A) : Permutation l' l ->
  exists idx, Permutation idx (seq 0 (length l)) /\ l' = map (aget l) idx.
Proof.
  intros HP. rewrite <- (map_aget_seq l) in HP.
  destruct (Permutation_map_inv _ _ HP) as (idx & -> & Hi).
  exists idx. split; [now symmetry|auto].
Qed.

Section Bins.
Context {T : Type} `{DT : Dflt T}.
Variables (add : T -> T -> T) (ltb : T -> T -> bool) (int_max : T).
Variable sortp : list (T * list nat) -> list (T * list nat).

(** no assumption on the order of costs *)
Lemma find_min_lt (cost : list T) size (Q : nat -> Prop) : 0 < size -> size <= length cost ->
  (forall b, b < size -> Q b) -> wp (find_min ltb int_max cost size) Q.
Proof.
  intros H0 HL HQ. unfold find_min. wp1.
  apply (wp_for (fun i '(_, b) => b < size)).
  - lia.
  - auto.
  - intros i [m b] Hi HI. wp1. wp1; [lia|]. destruct (ltb _ _); wp1; auto. lia.
  - intros [m b] HI. wp1. auto.
Qed.

Hypothesis sort_perm : forall l, Permutation (sortp l) l.

(** the bins: bin [b] gets the parts [asg.[b]], in this order *)
Definition packed (parts : list (list nat)) (inCost : list T) (merged : list (list nat)) (outCost : list T) (bins : nat)
    (merged' : list (list nat)) (outCost' : list T) (asg : list (list nat)) : Prop :=
  length merged' = length merged /\ length outCost' = length outCost /\ length asg = bins /\
  (forall b, b < bins -> merged'.[b] = merged.[b] ++ concat (map (aget parts) asg.[b])) /\
  (forall b, b < bins -> outCost'.[b] = fold_left add (map (aget inCost) asg.[b]) outCost.[b]) /\
  (forall b, bins <= b -> merged'.[b] = merged.[b] /\ outCost'.[b] = outCost.[b]).

Lemma concat_upd_perm (l : list (list nat)) b x : b < length l ->
  Permutation (concat (upd l b (l.[b] ++ [x]))) (concat l ++ [x]).
Proof.
  revert b. induction l as [|h t IH]; intros [|b] Hb; simpl in *; try lia.
  - change ((h :: t).[0]) with h. rewrite <- !app_assoc. apply Permutation_app_head. apply Permutation_app_comm.
  - rewrite aget_cons_S, <- app_assoc. apply Permutation_app_head. apply IH. lia.
Qed.

Lemma concat_repeat_nil k : concat (repeat (@nil nat) k) = [].
Proof. induction k; simpl; auto. Qed.

Lemma bin_pack_wp parts inCost merged outCost bins (I : list T -> Prop) (Q : list (list nat) * list T -> Prop) :
  0 < bins -> bins <= length merged -> bins <= length outCost -> length parts <= length inCost ->
  I outCost ->
  (forall oc c, length oc = length outCost -> In c (firstn (length parts) inCost) -> I oc ->
     (exists pre post, Permutation (firstn (length parts) inCost) (pre ++ c :: post) /\
        exists asg, Permutation (map (aget inCost) (concat asg)) pre /\ length asg = bins /\
           forall b, b < bins -> oc.[b] = fold_left add (map (aget inCost) asg.[b]) outCost.[b]) ->
     wp (find_min ltb int_max oc bins) (fun b => I (upd oc b (add oc.[b] c)))) ->
  (forall merged' outCost' asg, packed parts inCost merged outCost bins merged' outCost' asg ->
     Permutation (concat asg) (seq 0 (length parts)) -> I outCost' -> Q (merged', outCost')) ->
  wp (worst_fit_bin_pack add ltb int_max sortp parts inCost merged outCost bins) Q.
Proof.
  intros Hb Hm Ho Hp HI0 Hstep HQ. unfold worst_fit_bin_pack. wp1.
  set (P := map (fun i => (inCost.[i], parts.[i])) (seq 0 (length parts))).
  apply (wp_for (fun i pl => pl = map (fun i => (inCost.[i], parts.[i])) (seq 0 i))).
  - lia.
  - auto.
  - intros i pl Hi ->. wp1. wp1; [lia|]. wp1. wp1; [lia|]. wp1.
    rewrite seq_S, map_app. auto.
  - intros pl ->. fold P.
    assert (HP : Permutation (sortp P) (map (fun i => (inCost.[i], parts.[i])) (seq 0 (length parts)))) by apply sort_perm.
    destruct (Permutation_map_inv _ _ HP) as (idx & E & Hidx). symmetry in Hidx. rewrite E.
    assert (Fn : firstn (length parts) inCost = map (aget inCost) (seq 0 (length parts))).
    { apply list_ext.
      - rewrite firstn_length, map_length, seq_length. lia.
      - rewrite firstn_length. intros i Hi. rewrite aget_firstn by lia. now rewrite aget_map_seq by lia. }
    apply (wp_foreach (fun pre '(mg, oc) => exists asg k, packed parts inCost merged outCost bins mg oc asg /\
       Permutation (concat asg) (firstn k idx) /\ pre = map (fun i => (inCost.[i], parts.[i])) (firstn k idx) /\ k = length pre /\ I oc)).
    + exists (repeat [] bins), 0. splits; auto.
      * unfold packed. splits; auto; [apply repeat_length| |]; intros b Hbb; rewrite aget_repeat by lia; simpl; auto using app_nil_r.
      * simpl. rewrite concat_repeat_nil. auto.
    + intros pre [c p] post [mg oc] Ep (asg & k & (P1 & P2 & P3 & P4 & P5 & P6) & Pc & -> & Ek & HI).
      assert (Hk : k < length idx).
      { apply (f_equal (@length _)) in Ep. rewrite app_length, !map_length in Ep. simpl in Ep. rewrite map_length in Ek. lia. }
      assert (Ei : (c, p) = (inCost.[idx.[k]], parts.[idx.[k]])).
      { assert (Em : map (fun i => (inCost.[i], parts.[i])) idx = map (fun i => (inCost.[i], parts.[i])) (firstn k idx)
            ++ map (fun i => (inCost.[i], parts.[i])) (skipn k idx)) by (rewrite <- map_app; now rewrite firstn_skipn).
        rewrite Em in Ep. assert (Sk : skipn k idx = idx.[k] :: skipn (S k) idx).
        { clear - Hk. revert k Hk. induction idx as [|y t IH]; intros [|k] Hk; simpl in *; try lia; auto.
          rewrite IH by lia. now rewrite aget_cons_S. }
        rewrite Sk in Ep. simpl in Ep. apply app_inv_head in Ep. congruence. }
      injection Ei as Ec Epp.
      assert (Hik : idx.[k] < length parts).
      { assert (In idx.[k] (seq 0 (length parts))) by (rewrite <- Hidx; apply aget_In; auto). rewrite in_seq in H. lia. }
      assert (Hf : firstn (S k) idx = firstn k idx ++ [idx.[k]]).
      { clear - Hk. revert k Hk. induction idx as [|y t IH]; intros [|k] Hk; simpl in *; try lia; auto.
        rewrite aget_cons_S. rewrite <- IH by lia. auto. }
      wp1. eapply wp_mono.
      * apply wp_conj; [apply (Hstep oc c); auto|apply (find_min_lt oc bins (fun b => b < bins)); auto; lia].
        { rewrite Ec, Fn. apply in_map. apply in_seq. lia. }
        { exists (map (aget inCost) (firstn k idx)), (map (aget inCost) (skipn (S k) idx)). split.
          - rewrite Fn, <- Hidx, Ec. rewrite <- map_cons, <- map_app.
            rewrite <- (firstn_skipn (S k) idx) at 1. rewrite Hf, <- app_assoc. auto.
          - exists asg. splits; auto. now apply Permutation_map. }
      * intros b [HI' Hbb]. wp1. wp1; [lia|]. wp1. wp1; [lia|]. wp1. wp1; [lia|]. wp1. wp1; [lia|]. wp1.
        exists (upd asg b (asg.[b] ++ [idx.[k]])), (S k). splits; auto.
        -- unfold packed. rewrite !upd_length. splits; auto.
           ++ intros b' Hb'. rewrite !aget_upd by lia. destruct (Nat.eqb_spec b' b) as [->|]; auto.
              rewrite P4 by auto. rewrite map_app, concat_app. simpl. rewrite app_nil_r, Epp. now rewrite app_assoc.
           ++ intros b' Hb'. rewrite !aget_upd by lia. destruct (Nat.eqb_spec b' b) as [->|]; auto.
              rewrite P5 by auto. rewrite map_app, fold_left_app. simpl. now rewrite Ec.
           ++ intros b' Hb'. rewrite !aget_upd_ne by lia. auto.
        -- rewrite Hf. rewrite concat_upd_perm by lia. now apply Permutation_app_tail.
        -- rewrite Hf, map_app. simpl. now rewrite Ec, Epp.
        -- rewrite app_length, <- Ek. simpl. lia.
    + intros [mg oc] (asg & k & HP' & Pc & Ef & Ek & HI). apply (HQ mg oc asg); auto.
      rewrite Pc. rewrite map_length in Ek. subst k. now rewrite firstn_all.
Qed.

End Bins.

(** * Height partitioning *)

Lemma last_wide_wp lp k (Q : nat -> Prop) : k < length lp \/ k = 0 ->
  (forall r, r <= k -> (forall i, r <= i < k -> lp.[S i] = S lp.[i]) ->
     (0 < r -> lp.[r] <> S lp.[r - 1]) -> Q r) ->
  wp (last_wide lp k) Q.
Proof.
  induction k as [|i IH]; intros HL HQ; cbn [last_wide].
  - wp1. apply HQ; lia.
  - wp1. wp1; [lia|]. wp1. wp1; [lia|]. destruct (Z.eqb_spec (Z.of_nat lp.[S i] - Z.of_nat lp.[i]) 1) as [E|E].
    + apply IH; [lia|]. intros r Hr H1 H2. apply HQ; [lia| |auto].
      intros j Hj. destruct (Nat.eq_dec j i) as [->|]; [lia|]. apply H1. lia.
    + wp1. apply HQ; [lia| |].
      * intros; lia.
      * intros _. replace (S i - 1) with i by lia. lia.
Qed.

Definition inner_bound (innerParts : Z) : nat := if (1 <? innerParts)%Z then Z.to_nat innerParts else 6.

Lemma inner_size_bounds w t : 1 <= t -> 1 <= inner_size w t <= t /\ (1 <= inner_size w t <= w \/ inner_size w t = 1).
Proof. unfold inner_size. intros. destruct (Nat.leb_spec t w), (Nat.ltb_spec 1 w); lia. Qed.

Lemma inner_bound_pos i : 1 <= inner_bound i.
Proof. unfold inner_bound. destruct (Z.ltb_spec 1 i); lia. Qed.

(** what the driver needs: [c j] is the first level of slab [j] *)
Lemma height_wp levelNo lp H innerParts md dr p2l (Q : nat * (list nat * list nat) -> Prop) :
  0 < levelNo -> levelNo < length lp -> (1 <= md)%Z -> (1 <= dr)%Z -> levelNo < length p2l -> levelNo <= S H ->
  (forall k sizes p2l' last, length p2l' = length p2l -> 1 <= k <= levelNo -> length sizes = k ->
     p2l'.[0] = 0 ->
     (forall j, j < k -> p2l'.[j] < p2l'.[S j]) ->
     (forall j, j < k -> p2l'.[j] < levelNo) ->
     (forall j, 0 < j < k -> Z.of_nat p2l'.[j] = (md + Z.of_nat (j - 1) * dr)%Z) ->
     ((Z.of_nat levelNo <= md)%Z /\ k = 1 /\ p2l'.[k] = levelNo \/ (md < Z.of_nat levelNo)%Z /\ 2 <= k /\ p2l'.[k] = S H) ->
     last <= levelNo ->
     (forall i, last <= i < levelNo -> lp.[S i] = S lp.[i]) ->
     (0 < last -> lp.[last] <> S lp.[last - 1]) ->
     (forall j, 1 < j < k -> p2l'.[j] < last) ->
     (2 <= k -> last <= p2l'.[k - 1] + Z.to_nat dr) ->
     (forall j, j < k -> sizes.[j] =
        if j =? k - 1 then 1 else
        let w := lp.[p2l'.[S j]] - lp.[p2l'.[S j] - 1] in inner_size (if j =? 0 then w / 2 else w) (inner_bound innerParts)) ->
     Q (k, (sizes, p2l'))) ->
  wp (height_partitioning_DAG_trng levelNo lp H innerParts md dr p2l) Q.
Proof.
  intros Hl HL Hmd Hdr Hp HH HQ. unfold height_partitioning_DAG_trng. wp1.
  apply last_wide_wp; [auto|]. intros last Hla Hl1 Hl2.
  destruct (Z.leb_spec (Z.of_nat levelNo) md) as [Hc|Hc].
  - wp1. wp1; [lia|]. wp1. wp1; [rewrite upd_length; lia|]. wp1.
    apply (HQ 1 _ _ last); auto.
    + now rewrite !upd_length.
    + rewrite aget_upd_ne, aget_upd_eq by lia. auto.
    + intros j Hj. replace j with 0 by lia. rewrite aget_upd_ne, aget_upd_eq by lia.
      rewrite aget_upd_eq by (rewrite upd_length; lia). lia.
    + intros j Hj. replace j with 0 by lia. rewrite aget_upd_ne, aget_upd_eq by lia. lia.
    + intros; lia.
    + left. splits; auto. now rewrite aget_upd_eq by (rewrite upd_length; lia).
    + intros; lia.
    + intros; lia.
    + intros j Hj. replace j with 0 by lia. auto.
  - wp1. apply (wp_for (fun i accu => length accu = levelNo /\ forall j, j < i -> accu.[j] = lp.[S j] - lp.[j])).
    { lia. } { split; [apply repeat_length|intros; lia]. }
    { intros i accu Hi [HA Hj]. wp1. wp1; [lia|]. wp1. wp1; [lia|]. wp1; [lia|]. rewrite upd_length. split; auto.
      intros j Hj'. rewrite aget_upd by lia. destruct (Nat.eqb_spec j i) as [->|]; auto. apply Hj. lia. }
    intros accu [HA Hacc]. fold (inner_bound innerParts). wp1. wp1; [lia|].
    replace ((0 <? md) && (md <? Z.of_nat levelNo))%Z with true by lia.
    wp1. wp1. wp1; [rewrite upd_length; lia|]. wp1. unfold rdZ. replace (md - 1 <? 0)%Z with false by lia.
    wp1; [lia|]. wp1.
    set (sz0 := inner_size (accu.[Z.to_nat (md - 1)] / 2) (inner_bound innerParts)).
    set (q0 := upd (upd p2l 0 0) 1 (Z.to_nat md)).
    wp1. apply (wp_while (fun '(tmp, cnt, sizes, q) => 1 <= cnt < levelNo /\ tmp = (md + Z.of_nat cnt * dr)%Z /\ length q = length p2l /\
       length sizes = cnt /\ q.[0] = 0 /\ (forall j, 0 < j <= cnt -> Z.of_nat q.[j] = (md + Z.of_nat (j - 1) * dr)%Z) /\
       (forall j, 0 < j <= cnt -> q.[j] < levelNo) /\ (forall j, 1 < j <= cnt -> q.[j] < last) /\
       (forall j, j < cnt -> sizes.[j] = inner_size (let w := lp.[q.[S j]] - lp.[q.[S j] - 1] in if j =? 0 then w / 2 else w) (inner_bound innerParts)))
      (fun '(tmp, cnt, sizes, q) => Z.to_nat (Z.of_nat last - tmp))).
    + assert (Q1 : q0.[1] = Z.to_nat md) by (unfold q0; rewrite aget_upd_eq; auto; rewrite upd_length; lia).
      assert (Q0 : q0.[0] = 0) by (unfold q0; rewrite aget_upd_ne, aget_upd_eq by lia; auto).
      splits; auto; try lia.
      * unfold q0. now rewrite !upd_length.
      * intros j Hj. replace j with 1 by lia. lia.
      * intros j Hj. replace j with 1 by lia. lia.
      * intros j Hj. replace j with 0 by lia. simpl. unfold sz0. f_equal. f_equal. rewrite Q1.
        rewrite Hacc by lia. replace (S (Z.to_nat (md - 1))) with (Z.to_nat md) by lia.
        now replace (Z.to_nat (md - 1)) with (Z.to_nat md - 1) by lia.
    + unfold q0. rewrite !upd_length. lia.
    + intros [[[tmp cnt] sizes] q] (I1 & I2 & I3 & I4 & I5 & I6 & I7 & I8 & I9). wp1.
      destruct (Z.ltb_spec tmp (Z.of_nat last)) as [Hlt|Hge].
      * unfold rdZ. wp1. replace (tmp - 1 <? 0)%Z with false by nia. wp1; [lia|].
        assert (Hcn : S cnt < levelNo) by nia.
        wp1. wp1; [lia|]. wp1. split; [splits; auto; try lia|].
        -- now rewrite upd_length.
        -- rewrite app_length. simpl. lia.
        -- now rewrite aget_upd_ne by lia.
        -- intros j Hj. rewrite aget_upd by lia. destruct (Nat.eqb_spec j (S cnt)) as [->|]; [|apply I6; lia].
           replace (S cnt - 1) with cnt by lia. nia.
        -- intros j Hj. rewrite aget_upd by lia. destruct (Nat.eqb_spec j (S cnt)) as [->|]; [|apply I7; lia]. lia.
        -- intros j Hj. rewrite aget_upd by lia. destruct (Nat.eqb_spec j (S cnt)) as [->|]; [|apply I8; lia]. lia.
        -- intros j Hj. rewrite aget_upd by lia. destruct (Nat.eqb_spec (S j) (S cnt)) as [E|E].
           ++ replace j with (length sizes) by lia. rewrite aget_app_last. f_equal. replace (length sizes =? 0) with false by lia.
              cbv zeta. rewrite Hacc by nia. replace (S (Z.to_nat (tmp - 1))) with (Z.to_nat tmp) by nia.
              now replace (Z.to_nat (tmp - 1)) with (Z.to_nat tmp - 1) by nia.
           ++ rewrite aget_app1 by lia. apply I9. lia.
        -- nia.
      * wp1. wp1; [lia|]. wp1.
        assert (Inc : forall j, j < cnt -> q.[j] < q.[S j]).
        { intros j Hj. destruct j as [|j]; [specialize (I6 1); lia|].
          pose proof (I6 (S j) ltac:(lia)). pose proof (I6 (S (S j)) ltac:(lia)). nia. }
        apply (HQ (S cnt) _ _ last); auto; try lia.
        -- now rewrite upd_length.
        -- rewrite app_length. simpl. lia.
        -- now rewrite aget_upd_ne by lia.
        -- intros j Hj. rewrite !aget_upd by lia. destruct (Nat.eqb_spec j (S cnt)); [lia|].
           destruct (Nat.eqb_spec (S j) (S cnt)) as [E|E]; [|apply Inc; lia].
           destruct (Nat.eq_dec j 0); [lia|]. specialize (I7 j). lia.
        -- intros j Hj. rewrite aget_upd_ne by lia. destruct (Nat.eq_dec j 0) as [->|]; [lia|]. apply I7. lia.
        -- intros j Hj. rewrite aget_upd_ne by lia. apply I6. lia.
        -- right. splits; auto; try lia. now rewrite aget_upd_eq by lia.
        -- intros j Hj. rewrite aget_upd_ne by lia. apply I8. lia.
        -- intros _. rewrite aget_upd_ne by lia. specialize (I6 cnt). replace (S cnt - 1) with cnt by lia. nia.
        -- intros j Hj. replace (S cnt - 1) with cnt by lia. destruct (Nat.eqb_spec j cnt) as [E|E].
           ++ replace j with (length sizes) by lia. now rewrite aget_app_last.
           ++ rewrite aget_app1 by lia. rewrite I9 by lia. cbv zeta. rewrite aget_upd_ne by lia. auto.
Qed.
