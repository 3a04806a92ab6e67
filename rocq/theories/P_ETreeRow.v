(** C69: computeNoneZeroPatternOfRowK finds a row of the factor. *)
From Coq Require Import ZifyBool ZifyNat.
From Verif Require Import Base Lib Lib2 Lib3 Spec SpecETree M_ETree P_Tree P_Post L_Group4 L_ETree L_ETree2 P_ETree.

(** row [k] of the factor: the nodes on the way from its entries up to [k] *)
Lemma row_of_factor n Ap Ai par : (forall v, v < n -> etree_parent (below n Ap Ai) n v par.[v]) ->
  forall v k, fill (below n Ap Ai) v k -> v < k -> k < n -> exists j, entry Ap Ai k j /\ j < k /\ desc n par j v.
Proof.
  intros EP v k F. induction F as [v k H Hne|j v k F1 I1 F2 I2 L1 L2 Hne]; intros Hv Hk.
  - destruct H as [(H1 & H2 & H3)|(H1 & H2 & H3)]; [|lia]. exists v. splits; auto. constructor.
  - destruct (I2 ltac:(lia) Hk) as (e & E1 & E2 & E3). exists e. splits; auto. eapply desc_trans; eauto. eapply fill_desc; eauto. lia.
Qed.

Section Row.
Variables (n : nat) (Ap Ai : list nat) (k : nat) (par : list Z).
Hypothesis WR : wf_rows n Ap Ai.
Hypothesis Hk : k < n.
Hypothesis LO : forall p, Ap.[k] <= p < Ap.[S k] -> Ai.[p] <= k.
Hypothesis LP : length par = n.
Hypothesis EP : forall v, v < n -> etree_parent (below n Ap Ai) n v par.[v].

Notation F := (fill (below n Ap Ai)).

Lemma next_up x : x < k -> F x k -> exists p, par.[x] = Z.of_nat p /\ x < p <= k /\ (p = k \/ F p k).
Proof.
  intros Hx HF. destruct (EP x ltac:(lia)) as [[_ H]|(p & E & H1 & H2 & H3 & H4)]; [destruct (H k Hx Hk HF)|].
  exists p. specialize (H4 k Hx HF). splits; auto. destruct (Nat.eq_dec p k); [auto|right]. apply fill_elim with x; auto; lia.
Qed.

(** the nodes from [x] upwards to the first marked one *)
Inductive way (w : nat -> bool) : nat -> list nat -> Prop :=
| way_nil x : w x = true -> way w x []
| way_cons x p P : w x = false -> par.[x] = Z.of_nat p -> way w p P -> way w x (x :: P).

Lemma way_sorted w x P : way w x P -> (x = k \/ (x < k /\ F x k)) -> w k = true -> NoDup P /\ (forall v, In v P -> x <= v /\ v < k /\ F v k /\ w v = false).
Proof.
  induction 1 as [x Hx|x p P Hx Hp HP IH]; intros H Hw; [split; [constructor|contradiction]|].
  destruct H as [->|[H1 H2]]; [congruence|]. destruct (next_up x H1 H2) as (q & E & Q1 & Q2). assert (q = p) by lia. subst q.
  destruct IH as [I1 I2]; auto; [destruct Q2; [auto|]; destruct (Nat.eq_dec p k); [auto|right; split; auto; lia]|]. split.
  - constructor; auto. intros Hin. apply I2 in Hin. lia.
  - intros v [<-|Hv]; [auto|]. apply I2 in Hv. intuition lia.
Qed.

Lemma way_ext w1 w2 x P : way w1 x P -> (x = k \/ (x < k /\ F x k)) -> w1 k = true -> (forall v, x <= v -> w1 v = w2 v) -> way w2 x P.
Proof.
  induction 1 as [x Hx|x p P Hx Hp HP IH]; intros H Hw HE; [constructor; rewrite <- HE; auto|].
  destruct H as [->|[H1 H2]]; [congruence|]. destruct (next_up x H1 H2) as (q & E & Q1 & Q2). assert (q = p) by lia. subst q.
  apply way_cons with p; auto; [rewrite <- HE; auto|]. apply IH; auto; [destruct (Nat.eq_dec p k); [auto|right; split; [lia|destruct Q2; [lia|auto]]]|]. intros v Hv. apply HE. lia.
Qed.

Lemma walk_up d : forall fuel x len s w, (x = k \/ (x < k /\ F x k)) -> k - x <= d -> d < fuel -> len <= x -> length s = n -> length w = n -> w.[k] = true ->
  wp (while_ fuel
           (fun '(i, len, s, w) => x <- rdZ w i ;; Ok (negb x))
           (fun '(i, len, s, w) =>
              s <- wr s len (Z.to_nat i) ;;
              w <- wrZ w i true ;;
              i <- rdZ par i ;;
              Ok (i, S len, s, w)) (Z.of_nat x, len, s, w))
     (fun r => let '(_, len', s', w') := r in exists P, way (aget w) x P /\ len' = len + length P /\ len' <= k /\ length s' = n /\ length w' = n /\
        (forall q, q < len \/ len' <= q -> s'.[q] = s.[q]) /\ slice s' len len' = P /\ (forall v, w'.[v] = true <-> w.[v] = true \/ In v P)).
Proof.
  induction d as [|d IH]; intros fuel x len s w Hx Hd Hf Hl Ls Lw Hw; (destruct fuel as [|fuel]; [lia|]); cbn [while_]; wp1; wp1; (apply rdZ_wp; [lia|lia|]); rewrite Nat2Z.id; wp1.
  - assert (x = k) by lia. subst x. rewrite Hw. cbn [negb]. wp1. exists []. splits; auto; try lia; [now constructor|now apply slice_nil; lia|]. intros v. simpl. tauto.
  - destruct (w.[x]) eqn:Ew; cbn [negb].
    + wp1. exists []. splits; auto; try lia; [now constructor|now apply slice_nil; lia|]. intros v. simpl. tauto.
    + destruct Hx as [->|[H1 H2]]; [congruence|]. destruct (next_up x H1 H2) as (p & E & Q1 & Q2). wp1. wp1. wp1; [lia|]. wp1. apply wrZ_wp; [lia|lia|]. wp1. apply rdZ_wp; [lia|lia|]. wp1. rewrite !Nat2Z.id, E.
      eapply wp_mono; [apply (IH fuel p (S len) (upd s len x) (upd w x true))|]; rewrite ?upd_length; auto; try lia.
      * destruct (Nat.eq_dec p k); [auto|]. right. split; [lia|]. destruct Q2; [lia|auto].
      * rewrite aget_upd_ne by lia. auto.
      * intros [[[i' len'] s'] w'] (P & P1 & P2 & PK & P3 & P4 & P5 & P6 & P7). exists (x :: P). splits; auto.
        -- apply way_cons with p; auto. eapply way_ext; [exact P1| | |].
           ++ destruct (Nat.eq_dec p k); [auto|]. right. split; [lia|]. destruct Q2; [lia|auto].
           ++ rewrite aget_upd_ne by lia. auto.
           ++ intros v Hv. now rewrite aget_upd_ne by lia.
        -- simpl. lia.
        -- intros q Hq. rewrite P5 by lia. rewrite aget_upd_ne by lia. auto.
        -- rewrite slice_cons by lia. f_equal; auto. rewrite P5 by lia. apply aget_upd_eq. lia.
        -- intros v. rewrite P7. destruct (Nat.eq_dec v x) as [->|]; [rewrite aget_upd_eq by lia; simpl; tauto|rewrite aget_upd_ne by lia; simpl]. intuition congruence.
Qed.

(** ** Moving the found nodes to the upper part of [s] *)
Lemma copy_up (s0 : list nat) len0 top0 (P : list nat) : length s0 = n -> len0 <= top0 -> top0 < n -> slice s0 0 len0 = P -> length P = len0 ->
  wp (while_ (S n)
           (fun '(len, top, s) => Ok (0 <? len))
           (fun '(len, top, s) =>
              if top =? 0 then Err OOB else
              x <- rd s (len - 1) ;; s <- wr s (top - 1) x ;; Ok (len - 1, top - 1, s)) (len0, top0, s0))
     (fun r => let '(_, top, s) := r in top = top0 - len0 /\ length s = n /\ (forall q, top0 <= q -> s.[q] = s0.[q]) /\ slice s top top0 = P).
Proof.
  intros Ls Hl Ht HP LPn.
  apply (wp_while (fun st => let '(len, top, s) := st in len <= len0 /\ top + len0 = top0 + len /\ length s = n /\ (forall q, top0 <= q -> s.[q] = s0.[q]) /\
     (forall q, q < len -> s.[q] = P.[q]) /\ (forall q, len <= q < len0 -> s.[top + (q - len)] = P.[q])) (fun st => let '(len, _, _) := st in len)).
  - splits; auto; try lia. intros q Hq. rewrite <- HP, aget_slice by lia. auto.
  - lia.
  - intros [[len top] s] (I1 & I2 & I3 & I4 & I5 & I6). wp1. destruct (Nat.ltb_spec 0 len) as [Hpos|Hz].
    + destruct (Nat.eqb_spec top 0); [lia|]. wp1. wp1; [lia|]. wp1. wp1; [lia|]. wp1. rewrite upd_length. split; [|lia]. splits; auto; try lia.
      * intros q Hq. rewrite aget_upd_ne by lia. auto.
      * intros q Hq. rewrite aget_upd_ne by lia. apply I5. lia.
      * intros q Hq. destruct (Nat.eq_dec q (len - 1)) as [->|].
        -- rewrite Nat.sub_diag, Nat.add_0_r, aget_upd_eq by lia. apply I5. lia.
        -- rewrite aget_upd_ne by lia. replace (top - 1 + (q - (len - 1))) with (top + (q - len)) by lia. apply I6. lia.
    + assert (len = 0) by lia. subst len. splits; auto; try lia. apply list_ext; rewrite slice_length by lia; [lia|]. intros i Hi. rewrite aget_slice by lia.
      rewrite <- (I6 i) by lia. f_equal. lia.
Qed.

(** parents of the listed nodes come later in the list, or are [k] *)
Definition topo (L : list nat) : Prop := forall l1 v l2, L = l1 ++ v :: l2 -> par.[v] = Z.of_nat k \/ exists u, In u l2 /\ par.[v] = Z.of_nat u.

Lemma way_topo w x P L : way w x P -> (x = k \/ (x < k /\ F x k)) -> (forall v, w v = true <-> v = k \/ In v L) -> topo L -> topo (P ++ L).
Proof.
  induction 1 as [x Hx|x p P Hx Hp HP IH]; intros H Hw HT; [auto|].
  destruct H as [->|[H1 H2]]; [assert (w k = true) by (apply Hw; auto); congruence|]. destruct (next_up x H1 H2) as (q & E & Q1 & Q2). assert (q = p) by lia. subst q.
  assert (IT : topo (P ++ L)) by (apply IH; auto; destruct (Nat.eq_dec p k); [auto|right; split; [lia|destruct Q2; [lia|auto]]]).
  intros [|y l1] v l2 El; cbn [app] in El; injection El as <- El.
  - subst l2. inversion HP as [p' Hp'|p' p2 P' Hp' Ep2 HP']; subst.
    + apply Hw in Hp'. destruct Hp' as [->|Hp']; [auto|right]. exists p. split; auto.
    + right. exists p. split; auto. now left.
  - eapply IT; eauto.
Qed.

Variables (s0 : list nat) (w0 : list bool).
Hypothesis LS : length s0 = n.
Hypothesis LW : length w0 = n.
Hypothesis CLEAN : forall v, v < n -> w0.[v] = false.

Lemma w_true (w : list bool) v : w.[v] = true -> v < length w.
Proof. intros H. destruct (Nat.lt_ge_cases v (length w)); auto. rewrite aget_overflow in H by auto. discriminate. Qed.

Definition RowInv (p : nat) (st : nat * list nat * list bool) : Prop :=
  let '(top, s, w) := st in exists L, length s = n /\ length w = n /\ s.[n - 1] = s0.[n - 1] /\ top + length L = n - 1 /\ slice s top (n - 1) = L /\
    NoDup L /\ (forall v, In v L -> v < k /\ F v k) /\ topo L /\ (forall v, w.[v] = true <-> v = k \/ In v L) /\
    (forall q, Ap.[k] <= q < p -> Ai.[q] = k \/ In Ai.[q] L).

(** the first loop *)
Definition first_loop (b e : nat) (w : list bool) : res (nat * list nat * list bool) :=
  for_ b e (fun p '(top, s, w) =>
         i <- rd Ai p ;;
         r <- while_ (S n)
           (fun '(i, len, s, w) => x <- rdZ w i ;; Ok (negb x))
           (fun '(i, len, s, w) =>
              s <- wr s len (Z.to_nat i) ;;
              w <- wrZ w i true ;;
              i <- rdZ par i ;;
              Ok (i, S len, s, w))
           (Z.of_nat i, 0, s, w) ;;
         let '(_, len, s, w) := r in
         r <- while_ (S n)
           (fun '(len, top, s) => Ok (0 <? len))
           (fun '(len, top, s) =>
              if top =? 0 then Err OOB else
              x <- rd s (len - 1) ;; s <- wr s (top - 1) x ;; Ok (len - 1, top - 1, s))
           (len, top, s) ;;
         let '(_, top, s) := r in Ok (top, s, w))
       (n - 1, s0, w).

Lemma first_loop_wp : wp (first_loop Ap.[k] Ap.[S k] (upd w0 k true)) (RowInv Ap.[S k]).
Proof.
  destruct WR as [W1 W2]. destruct (W2 k Hk) as [W3 W4]. unfold first_loop.
  apply (wp_for RowInv).
  - lia.
  - exists []. rewrite upd_length. splits; auto; try lia.
    + apply slice_nil. lia.
    + constructor.
    + contradiction.
    + intros [|? ?] ? ? ?; discriminate.
    + intros v. simpl. destruct (Nat.eq_dec v k) as [->|Hne]; [rewrite aget_upd_eq by lia; tauto|]. rewrite aget_upd_ne by auto. split; [|intros [|[]]; congruence].
      intros Hv. pose proof (w_true w0 v Hv). rewrite CLEAN in Hv by lia. discriminate.
  - intros p [[top s] w] Hp (L & I1 & I2 & I3 & I4 & I5 & I6 & I7 & I8 & I9 & I10). wp1. wp1; [lia|]. wp1.
    assert (HX : Ai.[p] = k \/ (Ai.[p] < k /\ F Ai.[p] k)).
    { specialize (LO p Hp). destruct (Nat.eq_dec Ai.[p] k) as [|Hne]; [auto|right]. split; [lia|]. apply fill_entry; auto. left. unfold below. splits; auto; try lia. exists p. auto. }
    assert (Wk : w.[k] = true) by (apply I9; auto).
    eapply wp_mono; [apply (walk_up (k - Ai.[p]) (S n) Ai.[p] 0 s w); auto; lia|]. intros [[[i' len] s1] w1] (P & P1 & P2 & PK & P3 & P4 & P5 & P6 & P7). cbn beta iota in *.
    destruct (way_sorted _ _ _ P1 HX Wk) as [S1 S2].
    assert (ND : NoDup (P ++ L)). { apply NoDup_app_iff. splits; auto. intros v Hv Hv'. apply S2 in Hv. assert (w.[v] = true) by (apply I9; auto). destruct Hv as (_ & _ & _ & Hv). congruence. }
    assert (LEN : length (P ++ L) <= k).
    { rewrite <- (seq_length k 0). apply NoDup_incl_length; auto. intros v Hv. apply in_seq. apply in_app_iff in Hv. destruct Hv as [Hv|Hv]; [apply S2 in Hv; lia|]. destruct (I7 v Hv). lia. }
    rewrite app_length in LEN. wp1. eapply wp_mono; [apply (copy_up s1 len top P); auto; lia|]. intros [[z top'] s2] (C1 & C2 & C3 & C4). cbn beta iota in *. wp1.
    exists (P ++ L). rewrite app_length. splits; auto; try lia.
    + rewrite C3 by lia. rewrite P5 by lia. auto.
    + rewrite (slice_app s2 top' top (n - 1)) by lia. f_equal; auto. rewrite <- I5. apply slice_ext; try lia. intros i Hi. rewrite C3, P5 by lia. reflexivity.
    + intros v Hv. apply in_app_iff in Hv. destruct Hv as [Hv|Hv]; [apply S2 in Hv; tauto|auto].
    + eapply way_topo; eauto.
    + intros v. rewrite P7, I9, in_app_iff. tauto.
    + intros q Hq. rewrite in_app_iff. destruct (Nat.eq_dec q p) as [->|]; [|destruct (I10 q ltac:(lia)); auto].
      destruct HX as [|HX]; [auto|right]. inversion P1 as [x Hx|x p' P' Hx]; subst; [right|left; now left]. apply I9 in Hx. destruct Hx; [lia|auto].
  - auto.
Qed.

(** a last element of [s] that is no node: the marks are written out of bounds *)
Lemma stale_err : n <= s0.[n - 1] -> computeNoneZeroPatternOfRowK n Ap Ai k par s0 w0 = Err OOB.
Proof.
  intros ST. destruct WR as [W1 W2]. destruct (W2 k Hk) as [W3 W4]. pose proof first_loop_wp as G. apply wp_ok in G. destruct G as ([[top s] w] & E & (L & I1 & I2 & I3 & I4 & I5 & I6 & I7 & I8 & I9 & I10)).
  unfold computeNoneZeroPatternOfRowK. destruct (Nat.eqb_spec n 0); [lia|]. rewrite wr_ok by lia. cbn [bind]. rewrite !rd_ok by lia. cbn [bind]. unfold first_loop in E. rewrite E. cbn [bind].
  assert (IL : forall p, top <= p < n - 1 -> In s.[p] L). { intros p Hp. rewrite <- I5. apply In_slice; [lia|lia|]. exists p. auto. }
  rewrite (for_split _ top (n - 1) n) by lia.
  assert (G : wp (for_ top (n - 1) (fun p w => x <- rd s p ;; wr w x false) w) (fun w' => length w' = n)).
  { apply (wp_for (fun _ w' => length w' = n)); [lia|auto| |auto]. intros p w' Hp J. destruct (I7 s.[p] (IL p ltac:(lia))). wp1. wp1; [lia|]. wp1; [lia|]. now rewrite upd_length. }
  apply wp_ok in G. destruct G as (w' & -> & J). cbn [bind]. replace n with (S (n - 1)) at 2 by lia. rewrite for_step by lia. rewrite rd_ok by lia. cbn [bind]. rewrite I3. rewrite wr_oob by lia. reflexivity.
Qed.

Hypothesis STALE : s0.[n - 1] < n.

Theorem row_pattern_wp : wp (computeNoneZeroPatternOfRowK n Ap Ai k par s0 w0) (fun r => let '(top, s, w) := r in
  w = w0 /\ length s = n /\ top <= n - 1 /\ s.[n - 1] = k /\ NoDup (slice s top (n - 1)) /\
  (forall v, In v (slice s top (n - 1)) <-> v < k /\ F v k) /\ topo (slice s top (n - 1))).
Proof.
  destruct WR as [W1 W2]. destruct (W2 k Hk) as [W3 W4]. unfold computeNoneZeroPatternOfRowK. destruct (Nat.eqb_spec n 0); [lia|].
  wp1. wp1; [lia|]. wp1. wp1; [lia|]. wp1. wp1; [lia|]. wp1.

  eapply wp_mono; [exact first_loop_wp|].
  - intros [[top s] w] (L & I1 & I2 & I3 & I4 & I5 & I6 & I7 & I8 & I9 & I10). cbn beta iota. wp1.
    assert (IL : forall p, top <= p < n - 1 -> In s.[p] L). { intros p Hp. rewrite <- I5. apply In_slice; [lia|lia|]. exists p. auto. }
    apply (wp_for (fun p w' => length w' = n /\ forall v, w'.[v] = true -> w.[v] = true /\ forall q, top <= q < p -> s.[q] <> v)).
    + lia.
    + split; auto. intros v Hv. split; auto. lia.
    + intros p w' Hp [J1 J2]. assert (s.[p] < n). { destruct (Nat.eq_dec p (n - 1)) as [->|]; [lia|]. destruct (I7 s.[p] (IL p ltac:(lia))). lia. }
      wp1. wp1; [lia|]. wp1; [lia|]. split; [now rewrite upd_length|]. intros v Hv. destruct (Nat.eq_dec v s.[p]) as [->|Hne]; [rewrite aget_upd_eq in Hv by lia; discriminate|]. rewrite aget_upd_ne in Hv by auto.
      destruct (J2 v Hv) as [J3 J4]. split; auto. intros q Hq. destruct (Nat.eq_dec q p) as [->|]; [auto|apply J4; lia].
    + intros w' [J1 J2]. wp1. wp1; [lia|]. wp1. wp1; [lia|]. wp1.
      assert (SL : slice (upd s (n - 1) k) top (n - 1) = L) by (rewrite slice_upd_out by lia; auto). rewrite SL. splits; auto; try lia.
      * apply list_ext; rewrite upd_length; [lia|]. intros v Hv. rewrite CLEAN by lia. destruct (Nat.eq_dec v k) as [->|Hne]; [apply aget_upd_eq; lia|]. rewrite aget_upd_ne by auto.
        destruct (w'.[v]) eqn:Ew; auto. destruct (J2 v Ew) as [J3 J4]. apply I9 in J3. destruct J3 as [|J3]; [congruence|]. rewrite <- I5 in J3. apply In_slice in J3; [|lia|lia]. destruct J3 as (q & Q1 & Q2). destruct (J4 q ltac:(lia) Q2).
      * now rewrite upd_length.
      * rewrite aget_upd_eq by lia. auto.
      * intros v. split; [apply I7|]. intros [V1 V2]. destruct (row_of_factor n Ap Ai par EP v k V2 V1 Hk) as (j & (q & Q1 & Q2) & E2 & E3).
        assert (HJ : In j L). { destruct (I10 q Q1) as [E|E]; [lia|]. now rewrite <- Q2. }
        clear Q2 Q1 E2. revert V1 HJ. clear -E3 I8 EP I7 Hk. induction E3 as [j|j p v H1 H2 H3 IH]; intros V1 HJ; [auto|]. apply IH; auto.
        pose proof HJ as HJ'. apply in_split in HJ'. destruct HJ' as (l1 & l2 & EL). destruct (I8 l1 j l2 EL) as [E|(u & U1 & U2)].
        -- destruct (desc_up _ n par EP p v H3 H2). lia.
        -- assert (u = p) by lia. subst u. rewrite EL. apply in_app_iff. right. now right.
Qed.
End Row.

(** With the elimination tree of its lower triangle, a clean mark vector and a last element of [s] that is
    a node, the function returns in [s] the positions left of the diagonal in row [k] of the factor, every one
    once, children before parents, followed by [k]; the marks are clean again. *)
Theorem C69_row_pattern : forall n Ap Ai k par s w, wf_rows n Ap Ai -> k < n -> (forall p, Ap.[k] <= p < Ap.[S k] -> Ai.[p] <= k) ->
  computeParents n Ap Ai [] = Ok par -> length s = n -> s.[n - 1] < n -> length w = n -> (forall v, v < n -> w.[v] = false) ->
  exists top s', computeNoneZeroPatternOfRowK n Ap Ai k par s w = Ok (top, s', w) /\ length s' = n /\ top <= n - 1 /\ s'.[n - 1] = k /\
    (forall i j, top <= i < n -> top <= j < n -> s'.[i] = s'.[j] -> i = j) /\
    (forall v, (exists i, top <= i < n - 1 /\ s'.[i] = v) <-> v < k /\ fill (below n Ap Ai) v k) /\
    (forall i j, top <= i < n -> top <= j < n -> par.[s'.[i]] = Z.of_nat s'.[j] -> i < j).
Proof.
  intros n Ap Ai k par s w WR Hk LO EC LS ST LW CL. destruct (C36_computeParents n Ap Ai [] WR) as (par' & E' & LP & EP). rewrite EC in E'. injection E' as <-.
  pose proof (row_pattern_wp n Ap Ai k par WR Hk LO LP EP s w LS LW CL ST) as G. apply wp_ok in G. destruct G as ([[top s'] w'] & E & -> & L1 & L2 & L3 & L4 & L5 & L6).
  exists top, s'. assert (LSL : length (slice s' top (n - 1)) = n - 1 - top) by (apply slice_length; lia).
  assert (IN : forall i, top <= i < n - 1 -> s'.[i] < k). { intros i Hi. apply L5. apply In_slice; [lia|lia|]. exists i. auto. }
  assert (INJ : forall i j, top <= i < n - 1 -> top <= j < n - 1 -> s'.[i] = s'.[j] -> i = j).
  { intros i j Hi Hj Eq. assert (i - top = j - top); [|lia]. apply (proj1 (NoDup_nth (slice s' top (n - 1)) dflt) L4); try lia.
    change ((slice s' top (n - 1)).[i - top] = (slice s' top (n - 1)).[j - top]). rewrite !aget_slice by lia. replace (top + (i - top)) with i by lia. replace (top + (j - top)) with j by lia. auto. }
  splits; auto.
  - intros i j Hi Hj Eq. destruct (Nat.eq_dec i (n - 1)) as [->|], (Nat.eq_dec j (n - 1)) as [->|]; auto.
    + specialize (IN j ltac:(lia)). lia.
    + specialize (IN i ltac:(lia)). lia.
    + apply INJ; auto; lia.
  - intros v. rewrite <- L5. symmetry. apply In_slice; lia.
  - intros i j Hi Hj Eq. destruct (Nat.eq_dec i (n - 1)) as [->|Hni].
    + exfalso. rewrite L3 in Eq. destruct (EP k Hk) as [[E1 _]|(q & E1 & Q & _)]; [lia|]. destruct (Nat.eq_dec j (n - 1)) as [->|]; [lia|]. specialize (IN j ltac:(lia)). lia.
    + destruct (Nat.eq_dec j (n - 1)) as [->|Hnj]; [lia|].
      assert (SP : slice s' top (n - 1) = slice s' top i ++ s'.[i] :: slice s' (S i) (n - 1)) by (rewrite (slice_app s' top i (n - 1)), (slice_cons s' i) by lia; reflexivity).
      destruct (L6 _ _ _ SP) as [E1|(u & U1 & U2)]; [specialize (IN j ltac:(lia)); lia|]. apply In_slice in U1; [|lia|lia]. destruct U1 as (q & Q1 & Q2).
      assert (q = j); [|lia]. apply INJ; lia.
Qed.
Print Assumptions C69_row_pattern.

(** row 4 of the matrix of C36_case with an entry 1 added: 1 -> 3 -> 4 and 0 -> 2 -> 4 *)
Example C69_case : let Ap := [0;1;2;4;6;9] in let Ai := [0; 1; 0;2; 1;3; 0;1;4] in
  computeParents 5 Ap Ai [] = Ok [2; 3; 4; 4; -1]%Z /\
  computeNoneZeroPatternOfRowK 5 Ap Ai 4 [2; 3; 4; 4; -1]%Z [0;0;0;0;2] (repeat false 5) = Ok (0, [1; 3; 0; 2; 4], repeat false 5).
Proof. split; reflexivity. Qed.

(** Otherwise the marks are written out of bounds. *)
Theorem C69_stale_out_of_bounds : forall n Ap Ai k par s w, wf_rows n Ap Ai -> k < n -> (forall p, Ap.[k] <= p < Ap.[S k] -> Ai.[p] <= k) ->
  computeParents n Ap Ai [] = Ok par -> length s = n -> length w = n -> (forall v, v < n -> w.[v] = false) -> n <= s.[n - 1] ->
  computeNoneZeroPatternOfRowK n Ap Ai k par s w = Err OOB.
Proof.
  intros n Ap Ai k par s w WR Hk LO EC LS LW CL ST. destruct (C36_computeParents n Ap Ai [] WR) as (par' & E' & LP & EP). rewrite EC in E'. injection E' as <-.
  eapply stale_err; eauto.
Qed.
Print Assumptions C69_stale_out_of_bounds.

(** The last element of [s] is read before it is written: a stale value out of range is an out-of-bounds write. *)
Theorem C69_stale_refuted :
  ~ (forall n Ap Ai k par s w, wf_rows n Ap Ai -> k < n -> (forall p, Ap.[k] <= p < Ap.[S k] -> Ai.[p] <= k) ->
       computeParents n Ap Ai [] = Ok par -> length s = n -> length w = n -> (forall v, v < n -> w.[v] = false) ->
       exists r, computeNoneZeroPatternOfRowK n Ap Ai k par s w = Ok r).
Proof.
  intros H. destruct (H 2 [0;1;3] [0; 0;1] 1 [1; -1]%Z [0; 9] [false; false]) as [r Hr]; try reflexivity; try lia; [| | |vm_compute in Hr; discriminate].
  - split; [simpl; lia|]. intros [|[|k]] Hk; vm_compute; lia.
  - intros p Hp. vm_compute in Hp. destruct p as [|[|[|p]]]; vm_compute; lia.
  - intros [|[|v]] Hv; auto; lia.
Qed.
Print Assumptions C69_stale_refuted.
