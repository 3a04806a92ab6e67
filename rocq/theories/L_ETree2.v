(** utils/etree.cpp: update_etree and compute_etree. *)
From Coq Require Import ZifyBool ZifyNat.
From Verif Require Import Base Lib Lib2 Lib3 Spec SpecETree M_ETree P_Tree L_ETree.

Lemma update_etree_wp n k i0 par anc E : k < n -> length par = n -> n <= length anc -> i0 < k -> Inv (S k) E par anc ->
  wp (update_etree (S (S n)) i0 k (par, anc)) (fun st => climbed E k i0 par anc (fst st) (snd st)).
Proof.
  intros Hk LP LA Hi0 [I1 I2]. unfold update_etree. wp1. cbn [fst snd].
  assert (G : forall fuel i p a, conn E i0 i -> i < k -> k - i < fuel -> (forall v, i <= v -> p.[v] = par.[v] /\ a.[v] = anc.[v]) -> touches E k i0 par anc p a ->
     (forall v, v < k -> conn E i0 v -> par.[v] = (-1)%Z -> i <= v \/ p.[v] <> (-1)%Z) ->
     wp (while_ (S fuel)
    (fun '(stop, i, Parent, Ancestor) => Ok (negb stop))
    (fun '(_, i, Parent, Ancestor) =>
       a <- rdZ Ancestor i ;;
       if (a =? Z.of_nat k)%Z then Ok (true, i, Parent, Ancestor) else
       Ancestor <- wrZ Ancestor i (Z.of_nat k) ;;
       if (a =? -1)%Z then Parent <- wrZ Parent i (Z.of_nat k) ;; Ok (true, i, Parent, Ancestor)
       else Ok (false, a, Parent, Ancestor)) (false, Z.of_nat i, p, a)) (fun r => let '(_, _, p, a) := r in climbed E k i0 par anc p a)).
  { induction fuel as [|fuel IH]; intros i p a Hc Hik Hf Hsame HT HM; [lia|]. cbn [while_]. wp1. wp1. cbn [negb].
    destruct HT as (T1 & T2 & T3). destruct (Hsame i (le_n _)) as [S1 S2].
    wp1. wp1. apply rdZ_wp; [lia|lia|]. rewrite Nat2Z.id, S2. destruct (I2 i ltac:(lia)) as (A & B & C & D).
    destruct (Z.eqb_spec anc.[i] (Z.of_nat k)) as [Ek|Ek].
    - wp1. destruct fuel as [|fuel]; [lia|]. cbn [while_]. wp1. wp1. cbn [negb]. wp1. split; [split; auto|]. intros v Hv Hv' Hp.
      destruct (HM v Hv Hv' Hp) as [Hle|]; auto. exfalso. destruct (D ltac:(lia)) as (q & D1 & D2 & D3 & D4). assert (q = k) by lia. subst q.
      destruct (I2 v ltac:(lia)) as (_ & B' & _). assert (k <= v); [|lia]. apply B'; auto. apply conn_trans with i; auto. apply conn_trans with i0; auto. now apply conn_sym.
    - wp1. apply wrZ_wp; [lia|lia|]. rewrite Nat2Z.id. destruct (Z.eqb_spec anc.[i] (-1)) as [E0|E0].
      + wp1. apply wrZ_wp; [lia|lia|]. rewrite Nat2Z.id. wp1. destruct fuel as [|fuel]; [lia|]. cbn [while_]. wp1. wp1. cbn [negb]. wp1.
        assert (E1 : par.[i] = (-1)%Z) by tauto. split; [split; [now rewrite upd_length|]; split; [now rewrite upd_length|]|].
        * intros v. destruct (Nat.eq_dec v i) as [->|Hne].
          -- right. rewrite !aget_upd_eq by lia. rewrite E1. splits; auto; lia.
          -- rewrite !aget_upd_ne by lia. apply T3.
        * intros v Hv Hv' Hp. destruct (Nat.eq_dec v i) as [->|Hne]; [rewrite aget_upd_eq by lia; lia|]. rewrite aget_upd_ne by lia.
          destruct (HM v Hv Hv' Hp) as [Hle|]; auto. exfalso. assert (Hcv : conn E i v) by (apply conn_trans with i0; auto; now apply conn_sym). apply B in Hcv; auto. lia.
      + wp1. destruct (D E0) as (q & D1 & D2 & D3 & D4). rewrite D1.
        assert (Hcq : conn E i0 q) by (eapply conn_trans; eauto). apply IH; auto; try lia.
        * intros v Hv. rewrite aget_upd_ne by lia. apply Hsame. lia.
        * split; auto. split; [now rewrite upd_length|]. intros v. destruct (Nat.eq_dec v i) as [->|Hne].
          -- right. rewrite aget_upd_eq by lia. rewrite S1. splits; auto; try lia. destruct (Z.eqb_spec par.[i] (-1)); auto. tauto.
          -- rewrite aget_upd_ne by lia. apply T3.
        * intros v Hv Hv' Hp. destruct (HM v Hv Hv' Hp) as [Hle|]; auto. left. destruct (I2 v ltac:(lia)) as (_ & B' & _). apply B'; auto. apply conn_trans with i0; auto. now apply conn_sym. }
  eapply wp_mono; [apply (G (S n) i0 par anc)|]; auto; try lia.
  - apply conn_refl.
  - split; auto.
  - intros v Hv Hv' Hp. destruct (Nat.le_gt_cases i0 v); [auto|]. destruct (I2 v ltac:(lia)) as (_ & B & _). apply conn_sym in Hv'. apply B in Hv'; auto.
  - intros [[[x y] p] a] H. wp1. exact H.
Qed.

Section Compute.
Variable n : nat.

(** all rows below [k] done, the later ones untouched *)
Definition fresh (k la : nat) (E : nat -> nat -> Prop) (st : list Z * list Z) : Prop :=
  length (fst st) = n /\ length (snd st) = la /\ Inv k E (fst st) (snd st) /\
  forall v, k <= v < n -> (fst st).[v] = (-1)%Z /\ (snd st).[v] = (-1)%Z.

Lemma update_fresh k la i E st : k < n -> n <= la -> i < k -> fresh (S k) la E st -> wp (update_etree (S (S n)) i k st) (fun st => fresh (S k) la (add_edge E i k) st).
Proof.
  intros Hk Hla Hi (L1 & L2 & HI & HF). destruct st as [par anc]. cbn [fst snd] in *. eapply wp_mono; [apply (update_etree_wp n k i par anc E); auto; lia|].
  intros [p a] H. cbn [fst snd] in *. pose proof H as [(T1 & T2 & T3) _]. unfold fresh. cbn [fst snd]. splits; try lia.
  - eapply climbed_inv; eauto.
  - intros v Hv. destruct (T3 v) as [[-> ->]|(_ & Q & _)]; [auto|lia].
Qed.

Lemma fresh_next k la E st : k < n -> fresh k la E st -> fresh (S k) la E st.
Proof.
  intros Hk (L1 & L2 & HI & HF). unfold fresh. splits; auto; [|intros v Hv; apply HF; lia].
  eapply Inv_new; eauto; apply HF; lia.
Qed.

Lemma fresh_ext k la E E' st : (forall x y, E x y <-> E' x y) -> fresh k la E st -> fresh k la E' st.
Proof. intros HE (L1 & L2 & HI & HF). unfold fresh. splits; auto. eapply Inv_ext; eauto. Qed.

Variables (m : nat) (Ap Ai : list nat) (Parent0 : list Z).
Hypothesis WR : wf_rows n Ap Ai.
Hypothesis PL : length Parent0 = n.

Lemma init_wp la : n <= la -> wp (for_ 0 n (fun j '(Parent, Ancestor) =>
          Parent <- wr Parent j (-1)%Z ;; Ancestor <- wr Ancestor j (-1)%Z ;; Ok (Parent, Ancestor)) (Parent0, repeat 0%Z la)) (fun st => forall E, (forall x y, ~ E x y) -> fresh 0 la E st).
Proof.
  intros Hla. apply (wp_for (fun j st => length (fst st) = n /\ length (snd st) = la /\ forall v, v < j -> (fst st).[v] = (-1)%Z /\ (snd st).[v] = (-1)%Z)).
  - lia.
  - cbn [fst snd]. splits; auto; [apply repeat_length|]. lia.
  - intros j [P A] Hj (L1 & L2 & H). cbn [fst snd] in *. wp1. wp1; [lia|]. wp1. wp1; [lia|]. wp1. cbn [fst snd]. rewrite !upd_length. splits; auto.
    intros v Hv. destruct (Nat.eq_dec v j) as [->|Hne]; [rewrite !aget_upd_eq by lia; auto|rewrite !aget_upd_ne by lia; apply H; lia].
  - intros [P A] (L1 & L2 & H) E HE. cbn [fst snd] in *. unfold fresh. cbn [fst snd]. splits; auto.
    + split; [|lia]. intros x y Q. destruct (HE _ _ Q).
    + intros v Hv. apply H. lia.
Qed.

Theorem compute_etree_sym stype : (0 < stype)%Z -> n <= m ->
  wp (compute_etree m n Ap Ai stype Parent0) (fun r => fst r = true /\ length (snd r) = n /\ forall v, v < n -> etree_parent (below n Ap Ai) n v (snd r).[v]).
Proof.
  intros Hs Hm. destruct WR as [W1 W2]. unfold compute_etree. destruct (Z.eqb_spec stype 0); [lia|]. wp1. eapply wp_mono; [apply (init_wp m Hm)|]. intros st0 H0. cbn beta.
  destruct (Z.ltb_spec 0 stype); [|lia]. wp1.
  apply (wp_for (fun k st => fresh k m (done Ap Ai k Ap.[k]) st)).
  - lia.
  - apply H0. intros x y [Q [[Q1 _]|[-> (q & Q1 & _)]]]; lia.
  - intros k st Hk HF. destruct (W2 k ltac:(lia)) as [W3 W4]. wp1. wp1; [lia|]. wp1. wp1; [lia|].
    apply (wp_for (fun p st => fresh (S k) m (done Ap Ai k p) st)).
    + lia.
    + apply fresh_next; auto. lia.
    + intros p s Hp HS. wp1. wp1; [lia|]. destruct (Nat.ltb_spec Ai.[p] k) as [Hlt|Hge].
      * eapply wp_mono; [apply (update_fresh k m Ai.[p] (done Ap Ai k p) s); auto; lia|]. intros s'. apply fresh_ext. intros x y. unfold add_edge, done. split.
        -- intros [[Q [Q1|[-> (q & Q1 & Q2)]]]|[-> ->]]; split; auto; right; split; auto; [exists q|exists p]; split; auto; lia.
        -- intros [Q [Q1|[-> (q & Q1 & Q2)]]]; [left; split; auto|]. destruct (Nat.eq_dec q p) as [->|]; [right; subst x; auto|left; split; auto; right; split; auto; exists q; split; auto; lia].
      * wp1. eapply fresh_ext; [|exact HS]. intros x y. unfold done. split.
        -- intros [Q [Q1|[-> (q & Q1 & Q2)]]]; split; auto; right; split; auto; exists q; split; auto; lia.
        -- intros [Q [Q1|[-> (q & Q1 & Q2)]]]; split; auto. right. split; auto. exists q. split; auto. assert (q <> p) by (intros ->; lia). lia.
    + intros s HS. eapply fresh_ext; [|exact HS]. apply done_next.
  - intros st (L1 & _ & HI & _). wp1. cbn [fst snd]. splits; auto. apply (Inv_parent n (below n Ap Ai) (fst st) (snd st)). eapply Inv_ext; [|exact HI].
    intros x y. unfold done, below. split; [intros [Q [[Q1 Q2]|[-> (q & Q1 & _)]]]; [auto|lia]|tauto].
Qed.

Lemma init_oob la : la < n -> for_ 0 n (fun j '(Parent, Ancestor) =>
          Parent <- wr Parent j (-1)%Z ;; Ancestor <- wr Ancestor j (-1)%Z ;; Ok (Parent, Ancestor)) (Parent0, repeat 0%Z la) = Err OOB.
Proof.
  intros Hla. unfold for_. rewrite Nat.sub_0_r.
  assert (G : forall k j P A, length P = n -> length A = la -> j <= la -> j + k = n -> for_n k j (fun j '(Parent, Ancestor) =>
          Parent <- wr Parent j (-1)%Z ;; Ancestor <- wr Ancestor j (-1)%Z ;; Ok (Parent, Ancestor)) (P, A) = Err OOB).
  { induction k as [|k IH]; intros j P A L1 L2 Hj Hk; [lia|]. cbn [for_n]. unfold wr. destruct (Nat.ltb_spec j (length P)); [|lia]. cbn [bind].
    destruct (Nat.ltb_spec j (length A)); [|reflexivity]. cbn [bind]. apply IH; rewrite ?upd_length; lia. }
  apply G; auto; [apply repeat_length|lia].
Qed.
End Compute.

(** ** The unsymmetric case: A'A through one path per row *)

Section Rows.
Variables (m n : nat) (Ap Ai : list nat).
Hypothesis WR : wf_rows n Ap Ai.
Hypothesis WI : forall p, Ap.[0] <= p < Ap.[n] -> Ai.[p] < m.
Hypothesis ND : forall j p q, j < n -> Ap.[j] <= p < Ap.[S j] -> Ap.[j] <= q < Ap.[S j] -> Ai.[p] = Ai.[q] -> p = q.

Definition has (r j : nat) : bool := existsb (fun p => Ai.[p] =? r) (seq Ap.[j] (Ap.[S j] - Ap.[j])).

Lemma has_entry r j : has r j = true <-> entry Ap Ai j r.
Proof.
  unfold has, entry. rewrite existsb_exists. split.
  - intros (p & H1 & H2). apply in_seq in H1. apply Nat.eqb_eq in H2. exists p. split; auto. lia.
  - intros (p & H1 & H2). exists p. rewrite in_seq, Nat.eqb_eq. split; auto. lia.
Qed.

(** [x] is the column before [y] in row [r] *)
Definition prevcol (r y x : nat) : Prop := x < y /\ has r x = true /\ forall z, x < z < y -> has r z = false.

Definition path_edge (x y : nat) : Prop := y < n /\ exists r, has r y = true /\ prevcol r y x.

Lemma next_col r x j : x < j -> has r j = true -> has r x = true -> exists y, x < y <= j /\ has r y = true /\ prevcol r y x.
Proof.
  intros Hx Hj Hr. assert (G : forall d, x + S d <= j -> (forall z, x < z < x + S d -> has r z = false) -> exists y, x < y <= j /\ has r y = true /\ prevcol r y x).
  { intros d. remember (j - (x + S d)) as e. revert d Heqe. induction e as [|e IH]; intros d He Hd Hz.
    - exists j. splits; auto; try lia. split; auto. split; auto. intros z Q. apply Hz. lia.
    - destruct (has r (x + S d)) eqn:Hh.
      + exists (x + S d). splits; auto; try lia. split; [lia|]. auto.
      + apply (IH (S d)); try lia. intros z Q. destruct (Nat.eq_dec z (x + S d)) as [->|]; auto. apply Hz. lia. }
  apply (G 0); [lia|]. intros; lia.
Qed.

Lemma path_share x y : path_edge x y -> share_row n Ap Ai x y.
Proof. intros (H & r & H1 & H2 & H3 & H4). repeat split; try lia. exists r. now rewrite <- !has_entry. Qed.

Lemma row_up r j v : j < n -> v < j -> has r j = true -> forall d x, v - x <= d -> x <= v -> has r x = true -> exists k, v < k <= j /\ thru path_edge (S v) x k.
Proof.
  intros Hj Hv Hr. induction d as [|d IH]; intros x Hd Hx Hh.
  - destruct (next_col r x j ltac:(lia) Hr Hh) as (y & Y1 & Y2 & Y3). exists y. split; [lia|]. apply thru_edge. left. split; [lia|]. eauto.
  - destruct (next_col r x j ltac:(lia) Hr Hh) as (y & Y1 & Y2 & Y3). assert (PE : path_edge x y) by (split; [lia|eauto]).
    destruct (Nat.le_gt_cases y v).
    + destruct (IH y ltac:(lia) H Y2) as (k & K1 & K2). exists k. split; auto. eapply thru_step; [left; exact PE|lia|exact K2].
    + exists y. split; [lia|]. apply thru_edge. now left.
Qed.

Lemma row_join r v y : y < n -> y <= v -> has r y = true -> forall d x, y - x <= d -> x < y -> has r x = true -> thru path_edge (S v) x y.
Proof.
  intros Hy Hv Hr. induction d as [|d IH]; intros x Hd Hx Hh; [lia|].
  destruct (next_col r x y ltac:(lia) Hr Hh) as (z & Z1 & Z2 & Z3). assert (PE : path_edge x z) by (split; [lia|eauto]).
  destruct (Nat.eq_dec z y) as [->|]; [apply thru_edge; now left|]. eapply thru_step; [left; eauto|lia|]. apply IH; auto; lia.
Qed.

Lemma share_path v x j : thru (share_row n Ap Ai) (S v) x j -> x <= v -> v < j -> exists k, v < k <= j /\ thru path_edge (S v) x k.
Proof.
  assert (SY : forall a b, share_row n Ap Ai a b -> share_row n Ap Ai b a).
  { intros a b (H1 & H2 & H3 & r & H4 & H5). repeat split; auto. eauto. }
  assert (AD : forall a b, adj (share_row n Ap Ai) a b -> share_row n Ap Ai a b) by (intros a b [|]; auto).
  induction 1 as [x j H|x y j H H1 H2 IH]; intros Hx Hj; apply AD in H; destruct H as (A & B & C & r & D & F); apply has_entry in D, F.
  - apply (row_up r j v) with (d := v - x); auto.
  - destruct (IH ltac:(lia) Hj) as (k & K1 & K2). exists k. split; auto. apply thru_trans with y; auto. destruct (Nat.lt_ge_cases x y).
    + apply (row_join r v y) with (d := y - x); auto. lia.
    + apply thru_sym. apply (row_join r v x) with (d := x - y); auto; lia.
Qed.

Lemma Inv_share par anc : Inv n path_edge par anc -> forall v, v < n -> etree_parent (share_row n Ap Ai) n v par.[v].
Proof.
  intros [_ H] v Hv. destruct (H v Hv) as (_ & B & C & _). destruct (Z.eq_dec par.[v] (-1)) as [E|E].
  - left. split; auto. intros k Hk Hn F. apply fill_iff in F; auto. apply share_path in F; auto. destruct F as (k' & K1 & K2). apply thru_conn in K2. apply B in K2; auto. lia.
  - right. destruct (C E) as (k & C1 & C2 & C3 & C4 & C5). exists k. splits; auto.
    + apply fill_iff; auto. apply (thru_mono path_edge _ (S v)); auto. apply path_share.
    + intros j Hj F. apply fill_iff in F; auto. apply share_path in F; auto. destruct F as (k' & K1 & K2). assert (k <= k') by (apply C5; auto; lia). lia.
Qed.

(** edges processed at position [p] of column [j] *)
Definition pdone (j p x y : nat) : Prop :=
  (y < j /\ exists r, has r y = true /\ prevcol r y x) \/ (y = j /\ exists q, Ap.[j] <= q < p /\ prevcol Ai.[q] j x).

(** the last column of each row *)
Definition prev_inv (j p : nat) (Prev : list Z) : Prop :=
  length Prev = m /\ forall r, r < m ->
    ((exists q, Ap.[j] <= q < p /\ Ai.[q] = r) -> Prev.[r] = Z.of_nat j) /\
    ((forall q, Ap.[j] <= q < p -> Ai.[q] <> r) ->
       (Prev.[r] = (-1)%Z /\ forall z, z < j -> has r z = false) \/ (exists x, Prev.[r] = Z.of_nat x /\ prevcol r j x)).

Lemma Ap_range j p : j < n -> Ap.[j] <= p < Ap.[S j] -> Ai.[p] < m.
Proof.
  destruct WR as [W1 W2]. intros Hj Hp. apply WI. split.
  - assert (G : forall i, i <= j -> Ap.[0] <= Ap.[i]); [|specialize (G j (le_n _)); lia]. induction i as [|i IH]; intros Hi; [lia|]. destruct (W2 i ltac:(lia)). specialize (IH ltac:(lia)). lia.
  - assert (G : forall i, S j + i <= n -> Ap.[S j] <= Ap.[S j + i]); [|specialize (G (n - S j) ltac:(lia)); replace (S j + (n - S j)) with n in G by lia; lia].
    induction i as [|i IH]; intros Hi; [now rewrite Nat.add_0_r|]. destruct (W2 (S j + i) ltac:(lia)). specialize (IH ltac:(lia)). rewrite Nat.add_succ_r. lia.
Qed.

Variable Parent0 : list Z.
Hypothesis PL : length Parent0 = n.

Theorem compute_etree_unsym :
  wp (compute_etree m n Ap Ai 0 Parent0) (fun r => fst r = true /\ length (snd r) = n /\ forall v, v < n -> etree_parent (share_row n Ap Ai) n v (snd r).[v]).
Proof.
  pose proof WR as [W1 W2]. unfold compute_etree. cbn [Z.eqb Z.ltb Z.compare]. wp1. eapply wp_mono; [apply (init_wp n Parent0 PL n (le_n _))|]. intros st0 H0. cbn beta.
  wp1. apply (wp_for (fun i Prev => length Prev = m /\ forall r, r < i -> Prev.[r] = (-1)%Z)).
  - lia.
  - split; [apply repeat_length|lia].
  - intros i Prev Hi [L H]. wp1; [lia|]. split; [now rewrite upd_length|]. intros r Hr. destruct (Nat.eq_dec r i) as [->|]; [rewrite aget_upd_eq by lia; auto|rewrite aget_upd_ne by lia; apply H; lia].
  - intros Prev0 [LP HP]. wp1.
    apply (wp_for (fun j r => fresh n j n (pdone j Ap.[j]) (fst r) /\ prev_inv j Ap.[j] (snd r))).
    + lia.
    + cbn [fst snd]. split; [apply H0; intros x y [[Q _]|[_ (q & Q & _)]]; lia|]. split; auto. intros r Hr. split; [intros (q & Q & _); lia|]. intros _. left. split; auto. lia.
    + intros j [st Prev] Hj [HF HV]. cbn [fst snd] in *. destruct (W2 j ltac:(lia)) as [W3 W4]. wp1. wp1; [lia|]. wp1. wp1; [lia|].
      apply (wp_for (fun p r => fresh n (S j) n (pdone j p) (fst r) /\ prev_inv j p (snd r))).
      * lia.
      * cbn [fst snd]. split; auto. apply fresh_next; auto. lia.
      * intros p [s V] Hp [HS (LV & HV')]. cbn [fst snd] in *. wp1. wp1; [lia|]. pose proof (Ap_range j p ltac:(lia) Hp) as Hr. wp1. wp1; [lia|]. wp1.
        destruct (HV' Ai.[p] Hr) as [_ H2]. assert (HN : forall q, Ap.[j] <= q < p -> Ai.[q] <> Ai.[p]) by (intros q Hq E; apply (ND j) in E; lia).
        specialize (H2 HN).
        assert (PV : prev_inv j (S p) (upd V Ai.[p] (Z.of_nat j))).
        { split; [now rewrite upd_length|]. intros r Hrm. destruct (Nat.eq_dec r Ai.[p]) as [->|Hne].
          - rewrite aget_upd_eq by lia. split; auto. intros Q. destruct (Q p ltac:(lia) eq_refl).
          - rewrite aget_upd_ne by lia. destruct (HV' r Hrm) as [X Y]. split.
            + intros (q & Q1 & Q2). apply X. exists q. split; auto. assert (q <> p) by (intros ->; lia). lia.
            + intros Q. apply Y. intros q Hq. apply Q. lia. }
        destruct H2 as [[E1 E2]|(x & E1 & E2)].
        -- rewrite E1. cbn [Z.eqb Z.opp Pos.eqb]. wp1. wp1. wp1; [lia|]. wp1. cbn [fst snd]. split; auto. eapply fresh_ext; [|exact HS].
           intros a b. unfold pdone. split; (intros [Q|[-> (q & Q1 & Q2)]]; [left; auto|right; split; auto; exists q; split; auto]); [lia|].
           assert (q <> p); [|lia]. intros ->. destruct Q2 as (Q2 & Q3 & _). rewrite E2 in Q3 by lia. discriminate.
        -- rewrite E1. destruct (Z.eqb_spec (Z.of_nat x) (-1)); [lia|]. destruct (Z.ltb_spec (Z.of_nat x) 0); [lia|]. rewrite Nat2Z.id.
           eapply wp_mono; [apply (update_fresh n j n x (pdone j p) s); auto; try lia; apply E2|]. intros s' HS'. cbn beta. wp1. wp1; [lia|]. wp1. cbn [fst snd]. split; auto.
           eapply fresh_ext; [|exact HS']. intros a b. unfold add_edge, pdone. split.
           ++ intros [[Q|[-> (q & Q1 & Q2)]]|[-> ->]]; [left; auto| |]; right; split; auto; [exists q; split; auto; lia|exists p; split; auto; lia].
           ++ intros [Q|[-> (q & Q1 & Q2)]]; [auto|]. destruct (Nat.eq_dec q p) as [->|].
              ** right. split; auto. destruct E2 as (U1 & U2 & U3), Q2 as (V1 & V2 & V3). destruct (Nat.lt_trichotomy a x) as [L|[L|L]]; auto; exfalso; [rewrite V3 in U2 by lia|rewrite U3 in V2 by lia]; discriminate.
              ** left. right. split; auto. exists q. split; auto. lia.
      * intros [s V] [HS (LV & HV')]. cbn [fst snd] in *. split.
        -- eapply fresh_ext; [|exact HS]. intros a b. unfold pdone. split.
           ++ intros [[Q (r & Q1 & Q2)]|[-> (q & Q1 & Q2)]]; left; split; eauto. exists Ai.[q]. split; auto. apply has_entry. exists q. auto.
           ++ intros [[Q (r & Q1 & Q2)]|[-> (q & Q1 & Q2)]]; [|lia]. destruct (Nat.eq_dec b j) as [->|]; [right|left; split; eauto; lia]. split; auto.
              apply has_entry in Q1. destruct Q1 as (q & Q3 & Q4). exists q. split; [lia|]. now rewrite Q4.
        -- split; auto. intros r Hr. destruct (HV' r Hr) as [X Y]. split; [intros (q & Q & _); lia|]. intros _. destruct (has r j) eqn:Hh.
           ++ right. exists j. split; [|split; [lia|split; auto; lia]]. apply X. apply has_entry in Hh. destruct Hh as (q & Q1 & Q2). exists q. auto.
           ++ destruct Y as [[Y1 Y2]|(x & Y1 & Y2 & Y3 & Y4)].
              ** intros q Q1 Q2. assert (has r j = true); [|congruence]. apply has_entry. exists q. auto.
              ** left. split; auto. intros z Hz. destruct (Nat.eq_dec z j) as [->|]; auto. apply Y2. lia.
              ** right. exists x. split; auto. split; [lia|]. split; auto. intros z Hz. destruct (Nat.eq_dec z j) as [->|]; auto. apply Y4. lia.
    + intros [st Prev] [(L1 & _ & HI & _) _]. wp1. cbn [fst snd] in *. splits; auto. apply (Inv_share (fst st) (snd st)). eapply Inv_ext; [|exact HI].
      intros x y. unfold pdone, path_edge. split; [intros [Q|[-> (q & Q & _)]]; [auto|lia]|auto].
Qed.
End Rows.
