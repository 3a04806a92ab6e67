(** Proofs about the greedy window search, part 1: counting components, balancing. *)
From Verif Require Import Base Lib Lib2 Spec M_CC L_CC M_Sched L_Sched M_HDAGG.
From Coq Require Import ZifyBool ZifyNat.

(** ** The number of components *)

Lemma rel_pigeon (R : nat -> nat -> Prop) : forall l l' : list nat, NoDup l ->
  (forall x, In x l -> exists y, In y l' /\ R x y) ->
  (forall x x' y, In x l -> In x' l -> R x y -> R x' y -> x = x') -> length l <= length l'.
Proof.
  induction l as [|x l IH]; intros l' ND HT HI; [simpl; lia|].
  destruct (HT x (or_introl eq_refl)) as (y & Hy & Rxy).
  destruct (in_split y l' Hy) as (l1 & l2 & ->).
  inversion ND as [|? ? Hx ND']; subst.
  specialize (IH (l1 ++ l2) ND'). rewrite !app_length in *. simpl.
  enough (length l <= length l1 + length l2) by lia. apply IH.
  - intros z Hz. destruct (HT z (or_intror Hz)) as (y' & Hy' & Rz). exists y'. split; auto.
    apply in_app_iff in Hy'. apply in_app_iff. destruct Hy' as [|[<-|]]; auto.
    exfalso. apply Hx. rewrite (HI x z y); auto; [now left|now right].
  - intros a b c Ha Hb. apply HI; now right.
Qed.

Lemma connected_mono (R R' : nat -> nat -> Prop) : (forall u v, R u v -> R' u v) ->
  forall u v, connected R u v -> connected R' u v.
Proof.
  intros H u v HC. induction HC as [x|x y Hr|x y HC IH|x y z H1 IH1 H2 IH2].
  - constructor.
  - apply conn_edge. auto.
  - now apply conn_sym.
  - eapply conn_trans; eauto.
Qed.

(** merging can only lower the number of components, if every node of the larger set
    is connected to one of the smaller set *)
Lemma n_components_mono R R' nodes nodes' K K' :
  n_components R nodes K -> n_components R' nodes' K' ->
  (forall u v, R u v -> R' u v) ->
  (forall x, In x nodes' -> exists y, In y nodes /\ connected R' x y) -> K' <= K.
Proof.
  intros (reps & <- & ND & H1 & H2 & H3) (reps' & <- & ND' & H1' & H2' & H3') HR Hcov.
  apply (rel_pigeon (connected R')); auto.
  - intros x Hx. destruct (Hcov x (H1' x Hx)) as (y & Hy & Cxy). destruct (H2 y Hy) as (r & Hr & Cyr).
    exists r. split; auto. eapply conn_trans; [exact Cxy|]. eapply connected_mono; eauto.
  - intros x x' y Hx Hx' C1 C2. apply H3'; auto. eapply conn_trans; [exact C1|]. now apply conn_sym.
Qed.

Lemma n_components_unique R nodes K K' : n_components R nodes K -> n_components R nodes K' -> K = K'.
Proof.
  intros H H'. apply Nat.le_antisymm.
  - eapply (n_components_mono R R nodes nodes K' K); eauto. intros x Hx. exists x. split; auto. constructor.
  - eapply (n_components_mono R R nodes nodes K K'); eauto. intros x Hx. exists x. split; auto. constructor.
Qed.

(** ** Balancing *)
Section BalanceProof.
Variables (below : nat -> nat -> nat -> bool).
Hypothesis B0 : forall num den, 0 < num -> 0 < den -> below 0 num den = true.
Hypothesis B1 : forall a num, below a num 1 = (a <? num).

(** a chunk table: non-decreasing from 0 to the number of parts *)
Definition chunk_ok (cores part_cnt : nat) (chunk : list nat) : Prop :=
  length chunk = S cores /\ chunk.[0] = 0 /\ (forall i, i < cores -> chunk.[i] <= chunk.[S i]) /\
  chunk.[cores] = part_cnt.

Lemma fix_chunk_wp tid cores part_cnt chunk (Q : list nat -> Prop) :
  tid <= cores -> length chunk = S cores -> chunk.[0] = 0 ->
  (forall i, i < tid -> chunk.[i] <= chunk.[S i]) -> chunk.[tid] = part_cnt ->
  (forall chunk', chunk_ok cores part_cnt chunk' -> Q chunk') ->
  wp (for_ tid cores (fun i ch => wr ch (S i) part_cnt) chunk) Q.
Proof.
  intros Ht HL H0 Hm He HQ.
  apply (wp_for (fun j ch => length ch = S cores /\ ch.[0] = 0 /\ (forall i, i < j -> ch.[i] <= ch.[S i]) /\ ch.[j] = part_cnt)).
  - auto.
  - splits; auto.
  - intros j ch Hj (G1 & G2 & G3 & G4). wp1; [lia|]. rewrite upd_length. splits; auto.
    + rewrite aget_upd_ne by lia. auto.
    + intros i Hi. destruct (Nat.eq_dec i j) as [->|].
      * rewrite aget_upd_eq by lia. rewrite aget_upd_ne by lia. lia.
      * rewrite !aget_upd_ne by lia. apply G3. lia.
    + now rewrite aget_upd_eq by lia.
  - intros ch (G1 & G2 & G3 & G4). apply HQ. unfold chunk_ok. splits; auto.
Qed.

Section Loop.
Variables (cores part_cnt total : nat) (pcost : list nat).
Hypothesis HC : 1 <= cores.
Hypothesis HPc : part_cnt <= length pcost.
Hypothesis Hpos : forall q, q < part_cnt -> 0 < pcost.[q].
Hypothesis Hsum : sum_r 0 part_cnt (aget pcost) = total.

Definition BInv (s : bal) : Prop :=
  if b_brk s then
    length (b_cost s) = cores /\ b_tid s = cores /\ length (b_chunk s) = S cores /\ (b_chunk s).[0] = 0 /\
    (forall i, i < cores -> (b_chunk s).[i] <= (b_chunk s).[S i]) /\ (b_chunk s).[cores] = part_cnt
  else
    1 <= b_tid s <= cores /\ (b_tid s < cores \/ cores = 1) /\ length (b_cost s) = cores /\
    length (b_chunk s) = S cores /\ (b_chunk s).[0] = 0 /\
    (forall i, i < b_tid s - 1 -> (b_chunk s).[i] <= (b_chunk s).[S i]) /\
    (b_chunk s).[b_tid s - 1] <= b_part s <= part_cnt /\
    (0 < (b_cost s).[b_tid s - 1] -> (b_chunk s).[b_tid s] = b_part s) /\
    b_to s < total /\ b_to s + (b_cost s).[b_tid s - 1] = sum_r 0 (b_part s) (aget pcost) /\
    (forall j, b_tid s <= j -> j < cores -> (b_cost s).[j] = 0) /\
    b_num s = total - b_to s /\ b_den s = cores - (b_tid s - 1).

Lemma sum_lt part : part < part_cnt -> sum_r 0 part (aget pcost) < total.
Proof.
  intros Hp. rewrite <- Hsum. rewrite (sum_r_split 0 part part_cnt) by lia.
  rewrite (sum_r_first part part_cnt) by lia. specialize (Hpos part Hp). lia.
Qed.

Definition bmeas (s : bal) : nat :=
  if b_brk s then 0 else S (part_cnt - b_part s + (cores - b_tid s)).

Lemma balance_step_wp s : BInv s -> b_brk s = false -> b_part s < part_cnt ->
  wp (balance_step below cores part_cnt total pcost s) (fun s' => BInv s' /\ bmeas s' < bmeas s).
Proof.
  unfold BInv, bmeas at 2, balance_step. intros HI Hb Hp. rewrite Hb in *.
  destruct HI as (I1 & I2 & I3 & I4 & I5 & I6 & I7 & I8 & I9 & I10 & I11 & I12 & I13).
  destruct s as [part tid cost chunk to num den brk].
  cbn [b_part b_tid b_cost b_chunk b_to b_num b_den b_brk] in *. subst num den.
  wp1. wp1; [lia|]. set (x := cost.[tid - 1]) in *.
  unfold lt_share. destruct (Nat.eqb_spec (cores - (tid - 1)) 0); [lia|].
  pose proof (sum_lt part Hp) as Hlt.
  destruct (below x (total - to) (cores - (tid - 1))) eqn:Eb.
  - pose proof (Hpos part Hp). cbv iota. wp1. wp1; [lia|]. wp1. wp1; [lia|]. wp1. wp1; [lia|]. apply wp_ret. simpl.
    rewrite !upd_length. split; [|unfold bmeas; simpl; lia].
    rewrite !aget_upd_eq by lia. splits; auto; try lia.
    + rewrite aget_upd_ne by lia. auto.
    + intros i Hi. rewrite !aget_upd_ne by lia. apply I6. lia.
    + rewrite aget_upd_ne by lia. lia.
    + rewrite sum_r_S by lia. lia.
    + intros j Hj1 Hj2. rewrite aget_upd_ne by lia. apply I11; lia.
  - assert (Hx : 0 < x).
    { destruct (Nat.eq_dec x 0) as [Ex|]; [|lia]. rewrite Ex in Eb. rewrite B0 in Eb by lia. discriminate. }
    specialize (I8 Hx).
    assert (Htc : tid < cores).
    { destruct I2 as [|Hc1]; auto. assert (tid = 1) as -> by lia.
      rewrite Hc1 in Eb. simpl in Eb. rewrite B1 in Eb. apply Nat.ltb_ge in Eb. lia. }
    unfold share_zero. destruct (Nat.eqb_spec (cores - tid) 0); [lia|].
    destruct (Nat.eqb_spec (total - (to + x)) 0); [lia|]. cbv iota.
    destruct (Nat.eqb_spec (S tid) cores) as [Et|Et].
    + wp1. wp1; [lia|]. wp1. wp1; [lia|]. apply wp_ret. cbn [b_part b_tid b_cost b_chunk b_to b_num b_den b_brk]. rewrite !upd_length.
      split; [|unfold bmeas; simpl; lia]. splits; auto.
      * rewrite aget_upd_ne by lia. auto.
      * intros i Hi. destruct (Nat.eq_dec (S i) cores) as [Ei|].
        -- rewrite Ei. rewrite aget_upd_eq by lia. rewrite aget_upd_ne by lia.
           replace i with tid by lia. lia.
        -- rewrite !aget_upd_ne by lia. destruct (Nat.eq_dec (S i) tid) as [Ej|].
           ++ rewrite Ej. replace i with (tid - 1) by lia. lia.
           ++ apply I6. lia.
      * now rewrite aget_upd_eq by lia.
    + apply wp_ret. simpl. rewrite Nat.sub_0_r. split; [|unfold bmeas; simpl; lia].
      assert (E0 : cost.[tid] = 0) by (apply I11; lia).
      splits; auto; try lia.
      * intros i Hi. destruct (Nat.eq_dec (S i) tid) as [Ej|].
        -- rewrite Ej. replace i with (tid - 1) by lia. lia.
        -- apply I6. lia.
      * intros j Hj1 Hj2. apply I11; lia.
Qed.

Lemma balance_wp chunk (Q : _ -> Prop) : length chunk = S cores -> chunk.[0] = 0 ->
  (forall chunk' cost, length cost = cores -> chunk_ok cores part_cnt chunk' -> Q (chunk', cost)) ->
  wp (balance below cores part_cnt total pcost chunk) Q.
Proof.
  intros HL H0 HQ. unfold balance. wp1.
  destruct (Nat.ltb_spec part_cnt cores) as [Hlt|Hge].
  - wp1. apply (wp_for (fun part st => let '(ch, co) := st in
      length ch = S cores /\ length co = cores /\ forall i, i <= part -> ch.[i] = i)).
    + lia.
    + splits; auto; [apply repeat_length|]. intros i Hi. now replace i with 0 by lia.
    + intros part (ch & co) Hp (G1 & G2 & G3). wp1. wp1; [lia|]. wp1. wp1; [lia|]. wp1. wp1; [lia|].
      apply wp_ret. rewrite !upd_length. splits; auto. intros i Hi. rewrite aget_upd by lia.
      destruct (Nat.eqb_spec i (S part)); auto. apply G3. lia.
    + intros (ch & co) (G1 & G2 & G3). apply wp_ret. wp1. apply fix_chunk_wp; auto; try lia.
      * rewrite G3 by lia. auto.
      * intros i Hi. rewrite !G3 by lia. lia.
      * intros ch' Hch. apply wp_ret. auto.
  - wp1. apply (wp_while BInv bmeas).
    + unfold BInv. simpl. splits; auto; try lia.
      * apply repeat_length.
      * rewrite aget_repeat by lia. lia.
      * rewrite <- Hsum. pose proof (Hpos 0 ltac:(lia)). rewrite sum_r_first by lia. lia.
      * rewrite aget_repeat by lia. rewrite sum_r_nil by lia. lia.
      * intros j Hj1 Hj2. now rewrite aget_repeat by lia.
    + unfold bmeas. simpl. lia.
    + intros s HI. apply wp_ret. destruct (b_brk s) eqn:Eb; simpl.
      * unfold BInv in HI. rewrite Eb in HI. destruct HI as (G1 & G2 & G3 & G4 & G5 & G6).
        apply wp_ret. wp1. apply fix_chunk_wp; auto; try lia.
        -- intros i Hi. apply G5. lia.
        -- rewrite G2. auto.
        -- intros ch' Hch. apply wp_ret. auto.
      * destruct (Nat.ltb_spec (b_part s) part_cnt) as [Hp|Hp]; [now apply balance_step_wp|].
        unfold BInv in HI. rewrite Eb in HI.
        destruct HI as (I1 & I2 & I3 & I4 & I5 & I6 & I7 & I8 & I9 & I10 & I11 & I12 & I13).
        assert (Ep : b_part s = part_cnt) by lia. rewrite Ep, Hsum in I10.
        specialize (I8 ltac:(lia)).
        apply wp_ret. wp1. apply fix_chunk_wp; auto; try lia.
        -- intros i Hi. destruct (Nat.eq_dec (S i) (b_tid s)) as [Ej|].
           ++ rewrite Ej. replace i with (b_tid s - 1) by lia. lia.
           ++ apply I6. lia.
        -- intros ch' Hch. apply wp_ret. auto.
Qed.

End Loop.
End BalanceProof.

(** With two or more cores balancing never fails, for any costs and any comparison. *)
Lemma balance_safe_wp below cores part_cnt total pcost chunk (Q : _ -> Prop) :
  2 <= cores -> part_cnt <= length pcost -> length chunk = S cores -> chunk.[0] = 0 ->
  (forall chunk' cost, length cost = cores -> length chunk' = S cores -> chunk'.[0] = 0 -> Q (chunk', cost)) ->
  wp (balance below cores part_cnt total pcost chunk) Q.
Proof.
  intros HC HP HL H0 HQ. unfold balance.
  assert (Fin : forall tid ch (R : list nat -> Prop), length ch = S cores -> ch.[0] = 0 ->
    (forall ch', length ch' = S cores -> ch'.[0] = 0 -> R ch') ->
    wp (for_ tid cores (fun i ch => wr ch (S i) part_cnt) ch) R).
  { intros tid ch R G1 G2 HR. destruct (le_lt_dec tid cores) as [Hle|Hgt].
    - apply (wp_for (fun _ ch => length ch = S cores /\ ch.[0] = 0)); auto.
      + intros i c Hi (X1 & X2). wp1; [lia|]. rewrite upd_length, aget_upd_ne by lia. auto.
      + intros c (X1 & X2). auto.
    - unfold for_. replace (cores - tid) with 0 by lia. simpl. auto. }
  wp1. destruct (Nat.ltb_spec part_cnt cores) as [Hlt|Hge].
  - wp1. apply (wp_for (fun part st => let '(ch, co) := st in
      length ch = S cores /\ length co = cores /\ ch.[0] = 0)).
    + lia.
    + splits; auto. apply repeat_length.
    + intros part (ch & co) Hp (G1 & G2 & G3). wp1. wp1; [lia|]. wp1. wp1; [lia|]. wp1. wp1; [lia|].
      apply wp_ret. rewrite !upd_length, aget_upd_ne by lia. auto.
    + intros (ch & co) (G1 & G2 & G3). apply wp_ret. wp1. apply Fin; auto. intros. apply wp_ret. auto.
  - wp1. apply (wp_while (fun s => length (b_cost s) = cores /\ length (b_chunk s) = S cores /\ (b_chunk s).[0] = 0 /\
        (b_brk s = false -> 1 <= b_tid s < cores))
        (fun s => if b_brk s then 0 else S (part_cnt - b_part s + (cores - b_tid s)))).
    + simpl. splits; auto; try lia. apply repeat_length.
    + simpl. lia.
    + intros s (G1 & G2 & G3 & G4). apply wp_ret. destruct (b_brk s) eqn:Eb; simpl.
      * apply wp_ret. wp1. apply Fin; auto. intros. apply wp_ret. auto.
      * specialize (G4 eq_refl). destruct (Nat.ltb_spec (b_part s) part_cnt) as [Hp|Hp].
        -- unfold balance_step. wp1. wp1; [lia|].
           destruct (lt_share below (b_cost s).[b_tid s - 1] (b_num s) (b_den s)).
           ++ wp1. wp1; [lia|]. wp1. wp1; [lia|]. wp1. wp1; [lia|]. apply wp_ret.
              cbn [b_part b_tid b_cost b_chunk b_brk]. rewrite !upd_length, aget_upd_ne by lia. splits; auto; lia.
           ++ destruct (share_zero (total - (b_to s + (b_cost s).[b_tid s - 1])) (cores - b_tid s)).
              ** apply wp_ret. cbn [b_part b_tid b_cost b_chunk b_brk]. splits; auto; try lia; discriminate.
              ** destruct (Nat.eqb_spec (S (b_tid s)) cores) as [Et|Et].
                 --- wp1. wp1; [lia|]. wp1. wp1; [lia|]. apply wp_ret.
                     cbn [b_part b_tid b_cost b_chunk b_brk]. rewrite !upd_length, aget_upd_ne by lia.
                     splits; auto; try lia; discriminate.
                 --- apply wp_ret. cbn [b_part b_tid b_cost b_chunk b_brk]. splits; auto; try lia.
        -- apply wp_ret. wp1. apply Fin; auto. intros. apply wp_ret. auto.
Qed.
