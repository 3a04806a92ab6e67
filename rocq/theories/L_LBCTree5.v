(** height_partitioning of a tree. *)
From Coq Require Import ZifyBool ZifyNat.
From Verif Require Import Base Lib Lib2 Lib3 Spec M_Tree M_LBC M_LBCTree P_Tree L_LBC L_LBC2 L_LBC3 L_LBC4 L_LBC5.

Lemma level_cut_wp levelNo accu ip (Q : nat -> Prop) : 0 < levelNo -> length accu = levelNo ->
  (forall cut, cut <= levelNo -> Q cut) -> wp (level_cut levelNo accu ip) Q.
Proof.
  intros H0 HL HQ. unfold level_cut. wp1.
  apply (wp_while (fun '(stop, cut) => cut <= levelNo /\ (stop = false -> cut < levelNo)) (fun '(stop, cut) => levelNo - cut)).
  - split; [lia|auto].
  - lia.
  - intros [stop cut] [I1 I2]. destruct stop.
    + wp1. wp1. apply HQ. lia.
    + specialize (I2 eq_refl). wp1. apply rdZ_wp; [lia|lia|]. wp1. destruct (_ && _) eqn:Ec.
      * wp1. splits; try lia. 
      * wp1. apply HQ. lia.
Qed.

Lemma list_sum_app l l' : list_sum (l ++ l') = list_sum l + list_sum l'.
Proof. induction l; simpl; lia. Qed.

(** bound on the number of parts *)
Definition tree_bound (innerParts : Z) : nat := Z.to_nat (Z.max 1 (2 * innerParts - 1)).

Lemma bound_step ip d : (2 <= ip)%Z -> (2 <= d)%Z -> (ip + Z.max 1 (2 * (ip / d) - 1) <= Z.max 1 (2 * ip - 1))%Z.
Proof.
  intros Hi Hd. assert (ip / d <= ip / 2)%Z by (apply Z.div_le_compat_l; lia). pose proof (Z.mul_div_le ip 2 ltac:(lia)). lia.
Qed.

Lemma height_partitioning_wp levelNo lp innerParts md dr p2l (Q : nat * (list nat * list nat) -> Prop) :
  levelNo < length lp -> length p2l = levelNo + 1 -> 1 <= levelNo ->
  (forall k sizes p2l', 1 <= k -> k <= length sizes -> (forall j, j < length sizes -> 1 <= sizes.[j]) -> list_sum sizes <= tree_bound innerParts ->
     length p2l' = levelNo + 1 -> k <= levelNo -> p2l'.[0] = 0 -> (forall j, j < k -> p2l'.[j] < p2l'.[S j]) -> (forall j, j < k -> p2l'.[j] < levelNo) ->
     p2l'.[k] = (if levelNo <=? 2 then levelNo else S levelNo) -> (levelNo <= 2 -> k = 1 /\ sizes = [1]) -> Q (k, (sizes, p2l'))) ->
  wp (height_partitioning levelNo lp innerParts md dr p2l) Q.
Proof.
  intros HL HP H1 HQ. unfold height_partitioning.
  set (d := if (dr <=? 1)%Z then 10%Z else dr). assert (Hd : (2 <= d)%Z) by (unfold d; destruct (Z.leb_spec dr 1); lia).
  destruct (Nat.leb_spec levelNo 2) as [L2|L2].
  - wp1. wp1; [lia|]. wp1. wp1; [rewrite upd_length; lia|]. wp1.
    assert (E0 : (upd (upd p2l 0 0) 1 levelNo).[0] = 0) by (rewrite aget_upd_ne by lia; apply aget_upd_eq; lia).
    assert (E1 : (upd (upd p2l 0 0) 1 levelNo).[1] = levelNo) by (apply aget_upd_eq; rewrite upd_length; lia).
    apply HQ; rewrite ?upd_length; auto; cbn [length]; try lia.
    + intros j Hj. replace j with 0 by lia. auto.
    + unfold tree_bound. simpl. lia.
    + intros j Hj. replace j with 0 by lia. lia.
    + intros j Hj. replace j with 0 by lia. lia.
  - wp1. apply (wp_for (fun i accu => length accu = levelNo)); [lia|apply repeat_length| |].
    { intros i accu Hi Ha. wp1. wp1; [lia|]. wp1. wp1; [lia|]. wp1; [lia|]. now rewrite upd_length. }
    intros accu Ha. wp1. wp1; [lia|]. wp1.
    apply (wp_while (fun '(ip, c, sizes, q) => c <= length sizes /\ (forall j, j < length sizes -> 1 <= sizes.[j]) /\
       (Z.of_nat (list_sum sizes) + Z.max 1 (2 * ip - 1) <= Z.max 1 (2 * innerParts - 1))%Z /\ (ip <= innerParts)%Z /\
       length q = levelNo + 1 /\ q.[0] = 0 /\ (forall j, j < c -> q.[j] < q.[S j]) /\ (forall j, j <= c -> q.[j] < levelNo))
      (fun '(ip, c, sizes, q) => Z.to_nat ip)).
    + splits; try lia; cbn [length]; try lia.
      * cbn [list_sum fold_right]. lia.
      * rewrite upd_length. lia.
      * apply aget_upd_eq. lia.
      * intros j Hj. replace j with 0 by lia. rewrite aget_upd_eq by lia. lia.
    + lia.
    + intros [[[ip c] sizes] q] (I1 & I2 & I3 & I4 & I5 & I6 & I7 & I8). wp1.
      assert (Hc : c < levelNo).
      { assert (G : forall j, j <= c -> j <= q.[j]). { induction j; [lia|]. intros. specialize (I7 j ltac:(lia)). specialize (IHj ltac:(lia)). lia. }
        specialize (G c ltac:(lia)). specialize (I8 c ltac:(lia)). lia. }
      destruct (Z.ltb_spec 1 ip) as [Hip|Hip].
      * wp1. apply level_cut_wp; [lia|auto|]. intros cut Hcut. wp1. wp1; [lia|].
        pose proof (bound_step ip d ltac:(lia) Hd) as BS.
        assert (HD : (0 <= ip / d < ip)%Z).
        { split; [apply Z.div_pos; lia|apply Z.div_lt; lia]. }
        assert (SZ : forall j, j < length sizes + 1 -> 1 <= (sizes ++ [Z.to_nat ip]).[j]).
        { intros j Hj. destruct (Nat.eq_dec j (length sizes)) as [->|].
          - rewrite aget_app_last. lia.
          - rewrite aget_app1 by lia. apply I2. lia. }
        destruct (_ && _)%Z eqn:Ec.
        -- wp1. wp1. wp1; [lia|]. wp1. wp1. rewrite app_length, list_sum_app, upd_length. cbn [length list_sum fold_right]. splits; auto; try lia.
           ++ rewrite aget_upd_ne by lia. auto.
           ++ intros j Hj. destruct (Nat.eq_dec j c) as [->|].
              ** rewrite aget_upd_eq by lia. rewrite aget_upd_ne by lia. lia.
              ** rewrite !aget_upd_ne by lia. apply I7. lia.
           ++ intros j Hj. destruct (Nat.eq_dec j (S c)) as [->|].
              ** rewrite aget_upd_eq by lia. lia.
              ** rewrite !aget_upd_ne by lia. apply I8. lia.
        -- wp1. wp1. wp1. rewrite app_length, list_sum_app. cbn [length list_sum fold_right]. splits; auto; try lia.
      * wp1. wp1; [lia|]. wp1. apply HQ; rewrite ?app_length, ?upd_length, ?list_sum_app; cbn [length]; auto; try lia.
        -- intros j Hj. destruct (Nat.eq_dec j (length sizes)) as [->|].
           ++ rewrite aget_app_last. lia.
           ++ rewrite aget_app1 by lia. apply I2. lia.
        -- unfold tree_bound. cbn [list_sum fold_right]. lia.
        -- rewrite aget_upd_ne by lia. auto.
        -- intros j Hj. destruct (Nat.eq_dec j c) as [->|].
           ++ rewrite aget_upd_eq by lia. rewrite aget_upd_ne by lia. specialize (I8 c ltac:(lia)). lia.
           ++ rewrite !aget_upd_ne by lia. apply I7. lia.
        -- intros j Hj. rewrite aget_upd_ne by lia. apply I8. lia.
        -- rewrite aget_upd_eq by lia. now replace (levelNo <=? 2) with false by lia.
Qed.
