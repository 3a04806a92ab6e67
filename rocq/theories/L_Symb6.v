(** The pattern of a row of the factor: ereach (sparse_inspector.cpp 935-955). *)
From Coq Require Import ZifyBool ZifyNat.
From Verif Require Import Base Lib Lib2 Lib3 Spec SpecETree SpecMat SpecSym M_Tree M_Symb P_Tree L_ETree P_Post P_TreeH P_ETree L_Symb5.

Definition mem (x : nat) (l : list nat) : bool := existsb (Nat.eqb x) l.
Lemma mem_iff x l : mem x l = true <-> In x l.
Proof. unfold mem. rewrite existsb_exists. split; [intros (y & H & E); assert (x = y) by lia; now subst|intros H; exists x; split; auto; lia]. Qed.
Lemma mem_app x l l' : mem x (l ++ l') = mem x l || mem x l'.
Proof. unfold mem. apply existsb_app. Qed.

Lemma NoDup_below k (l : list nat) : NoDup l -> (forall x, In x l -> x < k) -> length l <= k.
Proof. intros ND H. rewrite <- (seq_length k 0) at 1. apply NoDup_incl_length; auto. intros x Hx. apply in_seq. specialize (H x Hx). lia. Qed.

Lemma NoDup_app_r {X} (l l' : list X) : NoDup (l ++ l') -> NoDup l'.
Proof. induction l as [|x l IH]; auto. intros H. inversion H; auto. Qed.

Section Reach.
Variables (n : nat) (Ap Ai : list nat) (par : list Z) (k : nat).
Hypothesis WR : wf_rows n Ap Ai.
Hypothesis LP : n <= length par.
Notation A := (below n Ap Ai).
Hypothesis EP : forall v, v < n -> etree_parent A n v par.[v].
Hypothesis Hk : k < n.

Lemma below_ordered : ordered n A.
Proof. intros i j (H1 & H2 & _). auto. Qed.

(** one step up the tree towards [k] *)
Lemma up_to x : x < k -> fill A x k -> exists p, par.[x] = Z.of_nat p /\ x < p /\ p <= k /\ (p < k -> fill A p k).
Proof.
  intros Hx F. destruct (EP x ltac:(lia)) as [[_ H]|(p & E & H1 & H2 & H3 & H4)]; [destruct (H k Hx Hk F)|]. exists p. specialize (H4 k Hx F). splits; auto.
  intros Hp. apply fill_elim with x; auto; lia.
Qed.

(** the marks *)
Definition marks (w0 w : list Z) (T : list nat) : Prop :=
  length w = length w0 /\ forall x, x < length w0 -> w.[x] = if (x =? k) || mem x T then CS_FLIP w0.[x] else w0.[x].

Definition onpath (T : list nat) : Prop := NoDup T /\ forall x, In x T -> x < k /\ fill A x k.

Lemma reach_path_wp w0 i top s w T (Q : nat * list Z * list Z -> Prop) :
  n <= length w0 -> (forall x, x < n -> (0 <= w0.[x])%Z) -> n <= length s -> top + length T = n ->
  marks w0 w T -> onpath T -> i <= k -> (i < k -> fill A i k) ->
  (forall L s' w', length s' = length s -> (forall x, top <= x < length s -> s'.[x] = s.[x]) ->
     marks w0 w' (L ++ T) -> onpath (L ++ T) -> (forall a, a < length L -> s'.[a] = Z.of_nat L.[a]) ->
     (forall a, a < length L -> (S a < length L /\ par.[L.[a]] = Z.of_nat L.[S a]) \/ (S a = length L /\ exists c, par.[L.[a]] = Z.of_nat c /\ (c = k \/ In c T))) ->
     (i = k \/ In i (L ++ T)) -> Q (length L, s', w')) ->
  wp (reach_path n par i s w) Q.
Proof.
  intros LW W0 LS HT HM HO Hi Fi HQ. unfold reach_path. apply wp_bind.
  apply wp_while with (I := fun '(c, len, s', w') => exists L m, len = length L /\ c = Z.of_nat m /\ m <= k /\ (m < k -> fill A m k) /\ length s' = length s /\
      (forall x, top <= x < length s -> s'.[x] = s.[x]) /\ marks w0 w' (L ++ T) /\ onpath (L ++ T) /\ (forall a, a < length L -> s'.[a] = Z.of_nat L.[a]) /\
      (forall a, a < length L -> (S a < length L /\ par.[L.[a]] = Z.of_nat L.[S a]) \/ (S a = length L /\ par.[L.[a]] = Z.of_nat m)) /\
      (i = m \/ In i L) /\ (forall x, In x L -> x < m))
    (m := fun '(c, _, _, _) => n - Z.to_nat c).
  - exists [], i. cbn [length app]. splits; auto; try (intros; lia). intros x [].
  - lia.
  - intros [[[c len] s'] w'] (L & m & -> & -> & M1 & M2 & M3 & M4 & (M5 & M5') & (M6 & M6') & M7 & M8 & M9 & M10).
    apply wp_bind. apply rdZ_wp; [lia|rewrite Nat2Z.id; lia|]. rewrite Nat2Z.id. cbn [wp].
    assert (EW : w'.[m] = if (m =? k) || mem m (L ++ T) then CS_FLIP w0.[m] else w0.[m]) by (apply M5'; lia).
    assert (W0m : (0 <= w0.[m])%Z) by (apply W0; lia).
    destruct ((m =? k) || mem m (L ++ T)) eqn:EM.
    + replace (w'.[m] <? 0)%Z with true by (unfold CS_FLIP in EW; lia). cbn [negb]. cbn [wp].
      assert (CM : m = k \/ In m T).
      { apply orb_true_iff in EM. destruct EM as [EM|EM]; [left; lia|]. apply mem_iff, in_app_iff in EM. destruct EM as [EM|EM]; auto. specialize (M10 m EM). lia. }
      apply HQ; auto; try (split; auto).
      * intros a Ha. destruct (M8 a Ha) as [|[H1 H2]]; auto. right. split; auto. eauto.
      * destruct M9 as [->|M9]; [|right; apply in_app_iff; auto]. destruct CM as [|CM]; auto. right. apply in_app_iff. auto.
    + rewrite EW. replace (w0.[m] <? 0)%Z with false by lia. cbn [negb]. apply orb_false_iff in EM. destruct EM as [EM1 EM2].
      assert (NI : ~ In m (L ++ T)) by (intros H; apply mem_iff in H; congruence).
      assert (Hmk : m < k) by lia. specialize (M2 Hmk).
      assert (NDm : NoDup (m :: L ++ T)) by (constructor; auto).
      assert (LEN : S (length L + length T) <= k). { rewrite <- app_length. change (S (length (L ++ T))) with (length (m :: L ++ T)). apply NoDup_below; auto. intros x [<-|Hx]; auto. now apply M6'. }
      apply wp_bind. apply wp_wr; [lia|]. apply wp_bind. apply rdZ_wp; [lia|rewrite Nat2Z.id; lia|]. apply wp_bind. apply wrZ_wp; [lia|rewrite Nat2Z.id; lia|]. apply wp_bind. apply rdZ_wp; [lia|rewrite Nat2Z.id; lia|].
      rewrite !Nat2Z.id. cbn [wp]. destruct (up_to m Hmk M2) as (p & Ep & P1 & P2 & P3). rewrite Ep, Nat2Z.id. split; [|lia].
      assert (PM : forall x, In x ((L ++ [m]) ++ T) <-> x = m \/ In x (L ++ T)) by (clear; intros x; rewrite !in_app_iff; cbn [In]; intuition).
      exists (L ++ [m]), p. rewrite !app_length, !upd_length. cbn [length]. split; [lia|]. split; [auto|]. split; [auto|]. split; [auto|]. split; [auto|]. split; [|split; [|split; [|split; [|split; [|split]]]]].
      * intros x Hx. rewrite aget_upd_ne by lia. now apply M4.
      * split; [now rewrite upd_length|]. intros x Hx. destruct (Nat.eq_dec x m) as [->|Hne].
        -- rewrite aget_upd_eq by lia. rewrite EW. replace ((m =? k) || mem m ((L ++ [m]) ++ T)) with true; auto. symmetry. apply orb_true_iff. right. apply mem_iff, PM. auto.
        -- rewrite aget_upd_ne by auto. rewrite M5' by auto. replace (mem x ((L ++ [m]) ++ T)) with (mem x (L ++ T)); auto. apply eq_true_iff_eq. rewrite !mem_iff, PM. intuition.
      * split.
        -- apply Permutation_NoDup with (m :: L ++ T); auto. rewrite <- app_assoc. cbn [app]. apply Permutation_middle.
        -- intros x Hx. apply PM in Hx. destruct Hx as [->|Hx]; auto.
      * intros a Ha. destruct (Nat.eq_dec a (length L)) as [->|Hne].
        -- rewrite aget_upd_eq by lia. now rewrite aget_app_last.
        -- rewrite aget_upd_ne by auto. rewrite aget_app1 by lia. apply M7. lia.
      * intros a Ha. destruct (Nat.eq_dec a (length L)) as [->|Hne].
        -- right. split; [lia|]. now rewrite aget_app_last.
        -- left. split; [lia|]. rewrite aget_app1 by lia. destruct (M8 a ltac:(lia)) as [[H1 H2]|[H1 H2]]; [rewrite aget_app1 by lia; auto|]. rewrite H1, aget_app_last. auto.
      * destruct M9 as [->|M9]; right; apply in_app_iff; cbn [In]; auto.
      * intros x Hx. apply in_app_iff in Hx. destruct Hx as [Hx|[<-|[]]]; auto. specialize (M10 x Hx). lia.
Qed.

Lemma push_path_wp len top s (L : list nat) (Q : nat * list Z -> Prop) : length L = len -> len <= top -> top <= length s -> (forall a, a < len -> s.[a] = Z.of_nat L.[a]) ->
  (forall s', length s' = length s -> (forall a, a < len -> s'.[top - len + a] = Z.of_nat L.[a]) -> (forall x, top <= x < length s -> s'.[x] = s.[x]) -> Q (top - len, s')) ->
  wp (push_path len top s) Q.
Proof.
  intros HL H1 H2 HS HQ. unfold push_path. apply wp_bind.
  apply wp_while with (I := fun '(l, t, s') => exists d, l = len - d /\ t = top - d /\ d <= len /\ length s' = length s /\
     (forall a, a < len - d -> s'.[a] = Z.of_nat L.[a]) /\ (forall a, len - d <= a < len -> s'.[top - len + a] = Z.of_nat L.[a]) /\ (forall x, top <= x < length s -> s'.[x] = s.[x])) (m := fun '(l, _, _) => l).
  - exists 0. rewrite !Nat.sub_0_r. splits; auto; try lia.
  - lia.
  - intros [[l t] s'] (d & -> & -> & D1 & D2 & D3 & D4 & D5). cbn [wp]. destruct (0 <? len - d) eqn:E.
    + replace (top - d =? 0) with false by lia. apply wp_bind. apply wp_rd; [lia|]. apply wp_bind. apply wp_wr; [lia|]. cbn [wp]. split; [|lia].
      exists (S d). rewrite upd_length. splits; auto; try lia.
      * intros a Ha. rewrite aget_upd_ne by lia. apply D3. lia.
      * intros a Ha. destruct (Nat.eq_dec a (len - d - 1)) as [->|Hne].
        -- replace (top - len + (len - d - 1)) with (top - d - 1) by lia. rewrite aget_upd_eq by lia. apply D3. lia.
        -- rewrite aget_upd_ne by lia. apply D4. lia.
      * intros x Hx. rewrite aget_upd_ne by lia. apply D5. lia.
    + cbn [wp]. replace (top - d) with (top - len) by lia. apply HQ; auto. intros a Ha. apply D4. lia.
Qed.

(** the stack: the nodes [T], each before its parent *)
Definition stack (top : nat) (s : list Z) (T : list nat) : Prop :=
  top + length T = n /\ (forall a, a < length T -> s.[top + a] = Z.of_nat T.[a]) /\
  (forall a, a < length T -> par.[T.[a]] = Z.of_nat k \/ exists b, a < b < length T /\ par.[T.[a]] = Z.of_nat T.[b]).

Lemma stack_closed top s T j v : stack top s T -> onpath T -> desc n par j v -> (j = k \/ In j T) -> v < k -> In v T.
Proof.
  intros (S1 & S2 & S3) (O1 & O2) D. induction D as [u|u p v H1 H2 H3 IH]; intros HJ Hv.
  - destruct HJ as [->|]; [lia|auto].
  - apply IH; auto. destruct HJ as [->|HJ].
    + exfalso. assert (LG : larger n par) by (intros x Hx; destruct (EP x Hx) as [[E _]|(p' & E & P1 & P2 & _)]; [auto|right; lia]).
      pose proof (larger_desc n par LG p v H2 H3). destruct (LG k Hk) as [E|E]; lia.
    + apply In_nth with (d := dflt) in HJ. destruct HJ as (a & Ha & Ea). change (nth a T dflt) with T.[a] in Ea. destruct (S3 a Ha) as [E|(b & Hb & E)]; rewrite Ea in E.
      * left. lia.
      * right. assert (p = T.[b]) as -> by lia. apply nth_In. lia.
Qed.

Theorem ereach_wp s0 w0 (Q : nat * list Z * list Z -> Prop) : n <= length s0 -> n <= length w0 -> (forall x, x < n -> (0 <= w0.[x])%Z) ->
  (forall top s T, length s = length s0 -> stack top s T -> NoDup T -> (forall x, In x T <-> x < k /\ fill A x k) -> Q (top, s, w0)) ->
  wp (ereach n Ap Ai k par s0 w0) Q.
Proof.
  intros LS LW W0 HQ. unfold ereach, cs_mark. destruct WR as [R1 R2]. destruct (R2 k Hk) as [R3 R4].
  apply wp_bind. apply wp_bind. apply wp_rd; [lia|]. apply wp_wr; [lia|]. apply wp_bind. apply wp_rd; [lia|]. apply wp_bind. apply wp_rd; [lia|]. apply wp_bind.
  assert (LG : larger n par) by (intros x Hx; destruct (EP x Hx) as [[E _]|(p' & E & P1 & P2 & _)]; [auto|right; lia]).
  apply wp_for with (I := fun t '(top, s, w) => exists T, length s = length s0 /\ stack top s T /\ onpath T /\ marks w0 w T /\ (forall p, Ap.[k] <= p < t -> Ai.[p] < k -> In Ai.[p] T)).
  - lia.
  - exists []. splits; auto.
    + unfold stack. cbn [length]. splits; auto; intros; lia.
    + split; [constructor|intros x []].
    + split; [now rewrite upd_length|]. intros x Hx. cbn [mem existsb]. rewrite orb_false_r. destruct (Nat.eq_dec x k) as [->|Hne]; [rewrite aget_upd_eq by lia; now rewrite Nat.eqb_refl|].
      rewrite aget_upd_ne by auto. now replace (x =? k) with false by lia.
    + intros; lia.
  - intros t [[top s] w] Ht (T & T1 & T2 & T3 & T4 & T5). apply wp_bind. apply wp_rd; [lia|]. destruct (k <? Ai.[t]) eqn:EK.
    + cbn [wp]. exists T. splits; auto. intros p Hp Hpk. apply T5; auto. assert (p <> t) by (intros ->; lia). lia.
    + pose proof T2 as (S1 & S2 & S3). apply wp_bind. apply (reach_path_wp w0 Ai.[t] top s w T); auto; try lia.
      { intros Hlt. apply fill_entry; [left|lia]. split; [auto|split; [auto|]]. exists t. split; [lia|auto]. }
      intros L s' w' K1 K2 K3 K4 K5 K6 K7. pose proof K4 as [K41 K42].
      assert (LEN : length L + length T <= k) by (rewrite <- app_length; apply NoDup_below; auto; intros x Hx; now apply K42).
      apply wp_bind. apply (push_path_wp (length L) top s' L); auto; try lia. intros s'' U1 U2 U3. cbn [wp]. exists (L ++ T). splits; auto; [congruence| |].
      * unfold stack. rewrite app_length. split; [lia|]. split.
        -- intros a Ha. destruct (lt_dec a (length L)) as [La|La].
           ++ rewrite aget_app1 by auto. now apply U2.
           ++ rewrite aget_app2 by lia. replace (top - length L + a) with (top + (a - length L)) by lia. rewrite U3 by lia. rewrite K2 by lia. apply S2. lia.
        -- intros a Ha. destruct (lt_dec a (length L)) as [La|La].
           ++ rewrite aget_app1 by auto. destruct (K6 a La) as [[V1 V2]|[V1 (c & V2 & [->|V3])]].
              ** right. exists (S a). split; [lia|]. rewrite aget_app1 by lia. auto.
              ** auto.
              ** right. apply In_nth with (d := dflt) in V3. destruct V3 as (b & B1 & B2). exists (length L + b). split; [lia|]. rewrite aget_app2 by lia. replace (length L + b - length L) with b by lia.
                 change T.[b] with (nth b T dflt). now rewrite B2.
           ++ rewrite (aget_app2 L T a) by lia. destruct (S3 (a - length L) ltac:(lia)) as [E|(b & Hb & E)]; auto. right. exists (length L + b). split; [lia|].
              rewrite aget_app2 by lia. now replace (length L + b - length L) with b by lia.
      * intros p Hp Hpk. destruct (Nat.eq_dec p t) as [->|Hne]; [destruct K7 as [|K7]; [lia|auto]|]. apply in_app_iff. right. apply T5; auto. lia.
  - intros [[top s] w] (T & T1 & T2 & T3 & T4 & T5). pose proof T2 as (S1 & S2 & S3). pose proof T3 as (O1 & O2). destruct T4 as (M1 & M2). apply wp_bind.
    assert (BT : forall a, a < length T -> T.[a] < k) by (intros a Ha; apply O2; apply nth_In; auto).
    apply wp_for with (I := fun t w => length w = length w0 /\ forall x, x < length w0 -> w.[x] = if (x =? k) || mem x (skipn (t - top) T) then CS_FLIP w0.[x] else w0.[x]).
    + lia.
    + split; auto. intros x Hx. rewrite Nat.sub_diag. cbn [skipn]. now apply M2.
    + intros t w' Ht (J1 & J2). apply wp_bind. apply wp_rd; [lia|]. set (a := t - top) in *. assert (ES : s.[t] = Z.of_nat T.[a]) by (replace t with (top + a) by lia; apply S2; lia). rewrite ES.
      specialize (BT a ltac:(lia)). replace (Z.of_nat T.[a] <? 0)%Z with false by lia. rewrite Nat2Z.id. apply wp_bind. apply wp_rd; [lia|]. apply wp_wr; [lia|]. rewrite upd_length. split; auto.
      intros x Hx. replace (S t - top) with (S a) by lia.
      assert (SK : skipn a T = T.[a] :: skipn (S a) T).
      { clear -Ht S1. assert (Ha : a < length T) by lia. revert Ha. clear. revert T. induction a as [|a IH]; intros [|y T] Ha; cbn [length] in *; try lia; [reflexivity|]. cbn [skipn]. rewrite IH by lia. reflexivity. }
      assert (NDa : NoDup (T.[a] :: skipn (S a) T)). { rewrite <- SK. rewrite <- (firstn_skipn a T) in O1. now apply NoDup_app_r in O1. }
      destruct (Nat.eq_dec x T.[a]) as [->|Hne].
      * rewrite aget_upd_eq by lia. rewrite J2 by lia. rewrite SK. cbn [mem existsb]. rewrite Nat.eqb_refl. replace (T.[a] =? k) with false by lia. cbn [orb].
        destruct (mem T.[a] (skipn (S a) T)) eqn:EX; [|unfold CS_FLIP; lia]. exfalso. inversion NDa; subst. apply H1. now apply mem_iff.
      * rewrite aget_upd_ne by auto. rewrite J2 by auto. rewrite SK. cbn [mem existsb]. now replace (x =? T.[a]) with false by lia.
    + intros w' (J1 & J2). apply wp_bind. apply wp_bind. apply wp_rd; [lia|]. apply wp_wr; [lia|]. cbn [wp].
      replace (upd w' k (CS_FLIP w'.[k])) with w0.
      2:{ apply list_ext; [now rewrite upd_length|]. intros x Hx. replace (n - top) with (length T) in J2 by lia. rewrite skipn_all in J2. cbn [mem existsb] in J2. destruct (Nat.eq_dec x k) as [->|Hne].
          - rewrite aget_upd_eq by lia. rewrite J2 by lia. rewrite Nat.eqb_refl. cbn [orb]. unfold CS_FLIP. lia.
          - rewrite aget_upd_ne by auto. rewrite J2 by auto. now replace (x =? k) with false by lia. }
      apply (HQ top s T); auto. intros x. split; [apply O2|]. intros (Hx & F).
      destruct (etree_tree n A par below_ordered LG EP) as [HA HC]. destruct (fill_tree n A par below_ordered LG HA x k F Hx) as (_ & _ & j & D1 & D2).
      apply (stack_closed top s T j x); auto. right. destruct D2 as (D2 & D3 & p & D4 & <-). apply T5; auto.
Qed.
End Reach.
