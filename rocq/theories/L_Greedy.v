(** Proofs about GreedyGrouping: the candidates and the loop of startGrouping. *)
From Coq Require Import ZifyBool ZifyNat.
From Verif Require Import Base Lib Lib2 Spec M_Greedy.

Lemma set_insert_In x y s : In x (set_insert y s) <-> x = y \/ In x s.
Proof.
  unfold set_insert. destruct (existsb (Nat.eqb y) s) eqn:E; [|simpl; intuition auto].
  apply existsb_exists in E. destruct E as (z & Hz & Ez). apply Nat.eqb_eq in Ez. subst z. split; auto. intros [->|H]; auto.
Qed.

Lemma set_insert_NoDup y s : NoDup s -> NoDup (set_insert y s).
Proof.
  intros H. unfold set_insert. destruct (existsb (Nat.eqb y) s) eqn:E; auto. constructor; auto. intros I.
  assert (existsb (Nat.eqb y) s = true); [|congruence]. apply existsb_exists. exists y. split; auto. apply Nat.eqb_refl.
Qed.

Lemma set_insert_all l s : NoDup s -> NoDup (fold_right set_insert s l) /\ forall x, In x (fold_right set_insert s l) <-> In x l \/ In x s.
Proof.
  intros H. induction l as [|y l (IH1 & IH2)]; cbn [fold_right]; [split; auto; simpl; tauto|]. split; [now apply set_insert_NoDup|].
  intros x. rewrite set_insert_In, IH2. simpl. intuition auto.
Qed.

Lemma drop_le_spec h l : sorted_lt l -> sorted_lt (drop_le h l) /\ forall x, In x (drop_le h l) <-> In x l /\ h < x.
Proof.
  induction l as [|y l IH]; intros S; [simpl; split; [auto|tauto]|]. pose proof S as S'. apply sorted_lt_cons in S'. destruct S' as (S1 & S2).
  cbn [drop_le]. destruct (Nat.leb_spec y h) as [H|H].
  - destruct (IH S2) as (I1 & I2). split; auto. intros x. rewrite I2. simpl. split; [tauto|]. intros ([->|I] & Hx); [lia|auto].
  - split; auto. intros x. split; [|tauto]. intros I. split; auto. destruct I as [->|I]; auto. apply S1 in I. lia.
Qed.

Lemma drop_le_id h l : (forall x, In x l -> h < x) -> drop_le h l = l.
Proof. destruct l as [|x l]; intros H; simpl; auto. destruct (Nat.leb_spec x h) as [L|]; auto. specialize (H x ltac:(now left)). lia. Qed.

(** what a candidate means: the smallest above the head; the rest of the vector is above it *)
Definition is_best (h : nat) (pool : list nat) (o : option nat) (cur : list nat) : Prop :=
  sorted_lt cur /\ incl cur pool /\
  match o with
  | Some b => In b pool /\ h < b /\ (forall x, In x pool -> h < x -> b <= x) /\ forall x, In x cur -> b < x
  | None => cur = [] /\ forall x, In x pool -> x <= h
  end.

Lemma best_of_pool_spec h pool : NoDup pool -> let '(o, c) := best_of_pool h pool in is_best h pool o c.
Proof.
  intros ND. unfold best_of_pool.
  destruct (drop_le_spec h (isort pool)) as (S & I).
  { apply sorted_le_NoDup_lt; [apply isort_sorted|]. eapply Permutation_NoDup; [apply isort_perm|auto]. }
  destruct (drop_le h (isort pool)) as [|b r] eqn:E.
  - split; [apply sorted_lt_nil|]. split; [intros x []|]. split; auto. intros x Hx. destruct (Nat.le_gt_cases x h); auto. exfalso.
    apply (I x). split; [now apply isort_In|lia].
  - apply sorted_lt_cons in S. destruct S as (S1 & S2).
    assert (IB : In b pool /\ h < b). { destruct (proj1 (I b) ltac:(now left)) as (A & B). split; auto. now apply isort_In. }
    split; auto. split.
    + intros x Hx. destruct (proj1 (I x) ltac:(now right)) as (A & B). now apply isort_In.
    + destruct IB. splits; auto. intros x Hx Hh. assert (J : In x (b :: r)) by (apply I; split; [now apply isort_In|auto]).
      destruct J as [->|J]; auto. apply S1 in J. lia.
Qed.

Lemma get_best_spec h pool cur : NoDup pool -> sorted_lt cur -> incl cur pool -> (forall x, In x cur -> h < x) ->
  let '(o, pool', cur') := get_best h pool cur in NoDup pool' /\ (forall x, In x pool' <-> In x pool) /\ is_best h pool' o cur'.
Proof.
  intros ND SC IC HC. unfold get_best. destruct cur as [|c cur].
  - destruct pool as [|p pool'] eqn:Ep; [|rewrite <- Ep in *; clear Ep p pool'].
    + splits; auto; [tauto|]. split; [apply sorted_lt_nil|]. split; [intros x []|]. split; auto. intros x [].
    + pose proof (best_of_pool_spec h pool ND) as B. destruct (best_of_pool h pool) as [o c]. splits; auto. tauto.
  - rewrite drop_le_id by auto. pose proof SC as SC'. apply sorted_lt_cons in SC'. destruct SC' as (S1 & S2).
    destruct (Z.eqb_spec (Z.of_nat c - Z.of_nat h) 1) as [E|N].
    + splits; auto; [tauto|]. split; auto. split; [intros x Hx; apply IC; now right|]. splits; auto.
      * apply IC. now left.
      * apply HC. now left.
      * intros x _ Hx. lia.
    + destruct (set_insert_all (c :: cur) pool ND) as (N1 & N2).
      pose proof (best_of_pool_spec h _ N1) as B. destruct (best_of_pool h (fold_right set_insert pool (c :: cur))) as [o c'].
      splits; auto. intros x. rewrite N2. split; [|tauto]. intros [H|H]; auto.
Qed.

Section Loop.
Variables (n : nat) (m : Z) (Ap Ai : list nat).
Hypothesis W : wf_csc n Ap Ai.

(** [x] is a candidate put into the pool by a column of [s..h) *)
Definition cand (s h x : nat) : Prop := exists u k, s <= u < h /\ Ap.[u] <= k < Ap.[S u] /\ Ai.[k] = x /\ u < x /\ (Z.of_nat x <= m + Z.of_nat u)%Z.

Lemma add_children_wp s h pool (Q : list nat -> Prop) : h < n -> s <= h -> NoDup pool -> (forall x, In x pool <-> cand s h x) ->
  (forall pool', NoDup pool' -> (forall x, In x pool' <-> cand s (S h) x) -> Q pool') -> wp (add_children m Ap Ai h pool) Q.
Proof.
  destruct W as (W1 & W2 & W3 & W4 & W5). intros Hh Hs ND HP HQ. unfold add_children. apply wp_bind. apply wp_rd; [lia|]. apply wp_bind. apply wp_rd; [lia|].
  assert (HM : Ap.[S h] <= Ap.[n]) by (apply (mono_le (aget Ap) n); auto; lia). pose proof (W3 h Hh).
  apply (wp_for (fun j p => NoDup p /\ forall x, In x p <-> cand s h x \/ exists k, Ap.[h] <= k < j /\ Ai.[k] = x /\ h < x /\ (Z.of_nat x <= m + Z.of_nat h)%Z)); [lia| | |].
  - split; auto. intros x. rewrite HP. split; auto. intros [C|(k & Hk & _)]; auto; lia.
  - intros j p Hj (I1 & I2). apply wp_bind. apply wp_rd; [lia|]. apply wp_ret.
    destruct ((h <? Ai.[j]) && (Z.of_nat Ai.[j] <=? m + Z.of_nat h)%Z) eqn:E.
    + split; [now apply set_insert_NoDup|]. intros x. rewrite set_insert_In, I2. split.
      * intros [->|[C|(k & Hk & R)]]; [right; exists j; splits; auto; lia|auto|right; exists k; split; [lia|auto]].
      * intros [C|(k & Hk & <- & R)]; auto. destruct (Nat.eq_dec k j) as [->|]; auto. right. right. exists k. split; [lia|auto].
    + split; auto. intros x. rewrite I2. split.
      * intros [C|(k & Hk & R)]; auto. right. exists k. split; [lia|auto].
      * intros [C|(k & Hk & <- & R)]; auto. right. exists k. destruct (Nat.eq_dec k j) as [->|]; [lia|]. split; [lia|auto].
  - intros p (I1 & I2). apply HQ; auto. intros x. rewrite I2. split.
    + intros [(u & k & Hu & R)|(k & Hk & R)]; [exists u, k; split; [lia|auto]|exists h, k; split; [lia|]; tauto].
    + intros (u & k & Hu & Hk & R). destruct (Nat.eq_dec u h) as [->|]; [right; exists k; tauto|left]. exists u, k. split; [lia|auto].
Qed.

Definition ginv (st : gstate) : Prop :=
  let '(gset, inv, pool, cur, h, g) := st in
  h <= n /\ length gset = S g /\ length inv = n /\ gset.[0] = 0 /\ (forall i, i < g -> gset.[i] < gset.[S i]) /\ gset.[g] <= h /\
  (h = n -> gset.[g] = n) /\
  (forall v, v < h -> inv.[v] <= g /\ gset.[inv.[v]] <= v /\ (inv.[v] < g -> v < gset.[S inv.[v]])) /\
  (forall i, i < g -> ~ cand gset.[i] gset.[S i] gset.[S i]) /\
  (forall i v, i < g -> gset.[i] <= v -> S v < gset.[S i] -> cand gset.[i] (S v) (S v)) /\
  (forall v, gset.[g] <= v -> S v <= h -> cand gset.[g] (S v) (S v)) /\
  NoDup pool /\ (forall x, In x pool <-> cand gset.[g] h x) /\ sorted_lt cur /\ incl cur pool /\ (forall x, In x cur -> h < x).

Lemma cand_lt s h x : h <= n -> cand s h x -> x < n.
Proof.
  destruct W as (W1 & W2 & W3 & W4 & W5). intros Hh (u & k & Hu & Hk & <- & _). apply W5.
  assert (Ap.[S u] <= Ap.[n]) by (apply (mono_le (aget Ap) n); auto; lia). lia.
Qed.

Lemma app1_old {A} `{Dflt A} (l : list A) x i : i < length l -> (l ++ [x]).[i] = l.[i].
Proof. intros Hi. unfold aget. now rewrite app_nth1 by auto. Qed.
Lemma app1_new {A} `{Dflt A} (l : list A) x i : i = length l -> (l ++ [x]).[i] = x.
Proof. intros ->. unfold aget. rewrite app_nth2, Nat.sub_diag by lia. reflexivity. Qed.

Lemma greedy_step_wp st : ginv st -> (let '(_, _, _, _, h, _) := st in h < n) ->
  wp (greedy_step m Ap Ai st) (fun st' => ginv st' /\ let '(_, _, _, _, h, _) := st in let '(_, _, _, _, h', _) := st' in h' = S h).
Proof.
  destruct st as [[[[[gset inv] pool] cur] h] g]. intros (I1 & I2 & I3 & I4 & I5 & I6 & I6' & I7 & I8 & I9 & I10 & I11 & I12 & I13 & I14 & I15) Hh.
  unfold greedy_step. apply wp_bind. apply (add_children_wp gset.[g] h); auto. intros p1 N1 P1. apply wp_bind. apply wp_wr; [lia|].
  assert (IC : incl cur p1).
  { intros x Hx. apply P1. apply I14 in Hx. apply I12 in Hx. destruct Hx as (u & k & Hu & R). exists u, k. split; [lia|auto]. }
  pose proof (get_best_spec h p1 cur N1 I13 IC I15) as B. destruct (get_best h p1 cur) as [[o p2] c2]. destruct B as (N2 & P2 & (B1 & B2 & B3)).
  assert (P : forall x, In x p2 <-> cand gset.[g] (S h) x) by (intros x; rewrite P2; apply P1).
  assert (NX : (match o with Some b => (Z.of_nat b - Z.of_nat h =? 1)%Z | None => (-1 - Z.of_nat h =? 1)%Z end) = true <-> cand gset.[g] (S h) (S h)).
  { destruct o as [b|].
    - destruct B3 as (B3 & B4 & B5 & B6). split.
      + intros E. replace (S h) with b at 2 by lia. now apply P.
      + intros C. apply P in C. apply B5 in C; lia.
    - destruct B3 as (-> & B3). split; [lia|]. intros C. apply P in C. apply B3 in C. lia. }
  assert (INV : forall v, v < S h -> (upd inv h g).[v] = if v =? h then g else inv.[v]).
  { intros v Hv. destruct (Nat.eqb_spec v h) as [->|]; [now rewrite aget_upd_eq by lia|now rewrite aget_upd_ne by auto]. }
  destruct (match o with Some b => _ | None => _ end) eqn:E; apply wp_ret.
  - assert (C : cand gset.[g] (S h) (S h)) by now apply NX.
    destruct o as [b|]; [|lia]. assert (b = S h) by lia. subst b. destruct B3 as (B3 & B4 & B5 & B6).
    pose proof (cand_lt gset.[g] (S h) (S h) Hh C) as HL. split; auto. unfold ginv. rewrite upd_length. splits; auto; try lia.
    + intros v Hv. rewrite INV by auto. destruct (Nat.eqb_spec v h) as [->|]; [splits; auto; lia|]. apply I7. lia.
    + intros v Hv1 Hv2. destruct (Nat.eq_dec v h) as [->|]; auto. apply I10; lia.
  - assert (C : ~ cand gset.[g] (S h) (S h)) by (rewrite <- NX; discriminate). split; auto. unfold ginv. rewrite upd_length, app_length. cbn [length].
    assert (OL : forall i, i <= g -> (gset ++ [S h]).[i] = gset.[i]) by (intros i Hi; apply app1_old; lia).
    assert (NE : (gset ++ [S h]).[S g] = S h) by (apply app1_new; lia).
    splits; auto; try lia.
    + rewrite OL by lia. auto.
    + intros i Hi. destruct (Nat.eq_dec i g) as [->|]; [rewrite NE, OL by lia; lia|]. rewrite !OL by lia. apply I5. lia.
    + intros v Hv. rewrite INV by auto. destruct (Nat.eqb_spec v h) as [->|].
      * rewrite OL, NE by lia. splits; auto; lia.
      * destruct (I7 v ltac:(lia)) as (J1 & J2 & J3). rewrite OL by lia. splits; auto; try lia. intros _.
        destruct (Nat.eq_dec inv.[v] g) as [->|]; [rewrite NE; lia|]. rewrite OL by lia. apply J3. lia.
    + intros i Hi. destruct (Nat.eq_dec i g) as [->|]; [now rewrite NE, OL by lia|]. rewrite !OL by lia. apply I8. lia.
    + intros i v Hi. destruct (Nat.eq_dec i g) as [->|]; [rewrite NE, OL by lia; intros; apply I10; lia|]. rewrite !OL by lia. apply I9. lia.
    + constructor.
    + rewrite NE. intros x. split; [intros []|]. intros (u & k & Hu & _). lia.
    + apply sorted_lt_nil.
    + intros x [].
    + intros x [].
Qed.

Lemma greedy_loop : exists gset inv pool cur g,
  while_ (S n) (fun st : gstate => let '(_, _, _, _, h, _) := st in Ok (h <? n)) (greedy_step m Ap Ai) ([0], repeat 0 n, [], [], 0, 0)
    = Ok (gset, inv, pool, cur, n, g) /\ ginv (gset, inv, pool, cur, n, g).
Proof.
  assert (G : wp (while_ (S n) (fun st : gstate => let '(_, _, _, _, h, _) := st in Ok (h <? n)) (greedy_step m Ap Ai) ([0], repeat 0 n, [], [], 0, 0))
    (fun st => ginv st /\ let '(_, _, _, _, h, _) := st in h = n)).
  { apply (wp_while ginv (fun st : gstate => let '(_, _, _, _, h, _) := st in n - h)); [| lia|].
    - unfold ginv. cbn [length]. rewrite repeat_length. splits; auto; try lia; try (intros; lia).

      + constructor.
      + intros x. split; [intros []|]. intros (u & k & Hu & _). lia.
      + apply sorted_lt_nil.
      + intros x [].
      + intros x [].
    - intros [[[[[gset inv] pool] cur] h] g] I. apply wp_ret. destruct (Nat.ltb_spec h n) as [H|H].
      + eapply wp_mono; [apply greedy_step_wp; auto|]. intros [[[[[gset' inv'] pool'] cur'] h'] g'] (I' & ->). split; auto. lia.
      + split; auto. destruct I. lia. }
  apply wp_ok in G. destruct G as ([[[[[gset inv] pool] cur] h] g] & E & I & ->). exists gset, inv, pool, cur, g. auto.
Qed.
End Loop.
