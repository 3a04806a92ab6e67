(** Proofs about the loops of partialSparsification after clique detection. *)
From Coq Require Import ZifyBool ZifyNat.
From Verif Require Import Base Lib Lib2 Lib3 Spec M_Sparse L_Sparse L_Sparse2.

(** * The graph without cliques *)

Section NoClique.
Variables (n : nat) (Lp Li labels c : list nat).
Hypothesis W : wf_csc n Lp Li.
Hypothesis HL : length labels = n.
Hypothesis RC : run_cuts labels c.

(** [j] is not the last of its run *)
Definition inner (j : nat) : bool := negb (existsb (Nat.eqb (S j)) c).
Definition thin (j : nat) : list nat := if inner j then [j; S j] else col_of Lp Li j.

Lemma cut_lt i i' : i < i' -> i' < length c -> c.[i] < c.[i'].
Proof.
  destruct RC as (_ & _ & _ & H). intros Hi. induction Hi as [|i' Hi IH]; intros Hl.
  - apply H. lia.
  - specialize (IH ltac:(lia)). destruct (H i' ltac:(lia)). lia.
Qed.

Lemma inner_false i : S i < length c -> inner (c.[S i] - 1) = false.
Proof.
  intros Hi. destruct RC as (_ & _ & _ & H). destruct (H i Hi) as (H1 & _). unfold inner. apply negb_false_iff, existsb_exists.
  exists c.[S i]. split; [apply aget_In; lia|]. apply Nat.eqb_eq. lia.
Qed.

Lemma inner_true i j : S i < length c -> c.[i] <= j -> S j < c.[S i] -> inner j = true.
Proof.
  intros Hi H1 H2. unfold inner. apply negb_true_iff. destruct (existsb (Nat.eqb (S j)) c) eqn:E; auto. exfalso.
  apply existsb_exists in E. destruct E as (x & Hx & E). apply Nat.eqb_eq in E. subst x.
  destruct (In_aget _ _ Hx) as (k & Hk & Ek). destruct (Nat.lt_ge_cases i k) as [L|L].
  - destruct (Nat.eq_dec k (S i)) as [->|]; [lia|]. pose proof (cut_lt (S i) k ltac:(lia) Hk). lia.
  - destruct (Nat.eq_dec k i) as [->|]; [lia|]. pose proof (cut_lt k i ltac:(lia) ltac:(lia)). lia.
Qed.

Lemma inner_inv j : j < n -> inner j = true -> exists i, S i < length c /\ c.[i] <= j /\ S j < c.[S i].
Proof.
  intros Hj H. destruct RC as (R1 & R2 & R3 & R4).
  destruct (bucket_exists (aget c) (length c - 1) j) as (i & I1 & I2); [lia|lia|].
  exists i. splits; try lia. destruct (Nat.eq_dec (S j) c.[S i]) as [E|]; [|lia].
  pose proof (inner_false i ltac:(lia)) as F. replace (c.[S i] - 1) with j in F by lia. congruence.
Qed.

Lemma cut_bound i : i < length c -> c.[i] <= n.
Proof.
  intros Hi. destruct RC as (R1 & R2 & R3 & R4). rewrite <- HL, <- R3.
  destruct (Nat.eq_dec i (length c - 1)) as [->|]; auto. pose proof (cut_lt i (length c - 1) ltac:(lia) ltac:(lia)). lia.
Qed.

Lemma no_clique_wp (Q : _ -> Prop) : (forall p s, columns n thin p s -> Q (p, s)) -> wp (no_clique n c Lp Li) Q.
Proof.
  intros HQ. unfold no_clique. pose proof RC as (R1 & R2 & R3 & R4). pose proof W as (W1 & W2 & W3 & W4 & W5).
  set (I := fun j (st : list nat * list nat * nat) => let '(p, s, e) := st in length p = S n /\ s = flat_map thin (seq 0 j) /\ e = length s /\
    forall u, u < j -> p.[u] = length (flat_map thin (seq 0 u))).
  wp1. apply (wp_for (fun i st => I c.[i] st)); [lia| | |].
  - unfold I. rewrite R2, repeat_length. splits; auto. intros; lia.
  - intros i ((p & s) & e) Hi HI. destruct (R4 i ltac:(lia)) as (Hlt & _). pose proof (cut_bound (S i) ltac:(lia)) as Hb.
    wp1. wp1; [lia|]. wp1. wp1; [lia|]. wp1.
    apply (wp_for I); [lia|exact HI| |].
    + intros j ((p1 & s1) & e1) Hj (J1 & J2 & J3 & J4). wp1. wp1; [lia|]. wp1. unfold I. rewrite upd_length. splits; auto.
      * rewrite flat_map_S, <- J2. unfold thin. rewrite (inner_true i) by lia. reflexivity.
      * rewrite app_length. simpl. lia.
      * intros u Hu. destruct (Nat.eq_dec u j) as [->|]; [rewrite aget_upd_eq by lia; congruence|]. rewrite aget_upd_ne by auto. apply J4. lia.
    + intros ((p1 & s1) & e1) (J1 & J2 & J3 & J4). wp1. destruct (Nat.eqb_spec c.[S i] 0); [lia|]. wp1. cbv zeta.
      pose proof (Lp_le n Lp Li W (c.[S i] - 1) ltac:(lia)) as (B1 & B2 & B3).
      wp1. wp1; [lia|]. wp1. wp1; [lia|]. wp1. wp1; [lia|]. wp1.
      apply (wp_for (fun k (st : list nat * nat) => let '(s', e') := st in s' = s1 ++ slice Li Lp.[c.[S i] - 1] k /\ e' = length s')); [lia| | |].
      * split; auto. rewrite slice_nil by lia. now rewrite app_nil_r.
      * intros k (s2 & e2) Hk (-> & ->). wp1. wp1; [lia|]. wp1. split; [|rewrite !app_length; simpl; lia].
        rewrite <- app_assoc. f_equal. rewrite (slice_app Li Lp.[c.[S i] - 1] k (S k)) by lia. f_equal.
        rewrite slice_cons by lia. now rewrite slice_nil.
      * intros (s2 & e2) (E2 & E3). wp1. unfold I. rewrite upd_length. pose proof (inner_false i ltac:(lia)) as HF.
        assert (Ec : c.[S i] = S (c.[S i] - 1)) by lia. set (m := c.[S i] - 1) in *. rewrite Ec in *. splits; auto.
        -- rewrite flat_map_S, <- J2. unfold thin. rewrite HF. rewrite E2. reflexivity.
        -- intros u Hu. destruct (Nat.eq_dec u m) as [->|]; [rewrite aget_upd_eq by lia; congruence|]. rewrite aget_upd_ne by auto. apply J4. lia.
  - intros ((p & s) & e) HI. rewrite R3, HL in HI. destruct HI as (J1 & J2 & J3 & J4).
    wp1. wp1; [lia|]. wp1. apply HQ. unfold columns. rewrite upd_length. splits; auto. intros u Hu.
    destruct (Nat.eq_dec u n) as [->|]; [rewrite aget_upd_eq by lia; congruence|]. rewrite aget_upd_ne by auto. apply J4. lia.
Qed.

(** what the labels mean *)
Lemma inner_tail bins C : 0 < bins -> all_cuts n Lp Li bins C -> (forall j, j < n -> named n bins C j labels.[j]) ->
  forall j, j < n -> inner j = true -> tail_col n Lp Li j.
Proof.
  intros HB AC HN j Hj Hi. destruct (inner_inv j Hj Hi) as (i & H1 & H2 & H3). destruct RC as (_ & _ & _ & R4). destruct (R4 i H1) as (H4 & H5).
  pose proof (cut_bound (S i) H1).
  assert (E : labels.[j] = labels.[S j]) by (rewrite (H5 j), (H5 (S j)) by lia; auto).
  pose proof (HN j Hj) as N1. pose proof (HN (S j) ltac:(lia)) as N2. rewrite <- E in N2.
  destruct (named_clique n Lp Li bins HB C j (S j) _ AC N1 N2) as (a & b & (K1 & K2 & K3) & Ha & Hb).
  apply (twin_tail n Lp Li a); [apply K3; lia|apply K3; lia|lia].
Qed.
End NoClique.

(** * Transitive edges *)

Lemma aget_bool_upd (l : list bool) i q : i < length l -> (upd l i true).[q] = true <-> (q = i \/ l.[q] = true).
Proof.
  intros Hi. rewrite aget_upd by auto. destruct (Nat.eqb_spec q i); split; auto. intros [|]; auto; contradiction.
Qed.

(** entry [q] of a column is also an entry of the column [l2..u2) *)
Definition hit (s : list nat) (l1 u1 l2 u2 q : nat) : Prop := l1 <= q < u1 /\ exists q2, l2 <= q2 < u2 /\ s.[q] = s.[q2].
Definition incr (s : list nat) (a b : nat) : Prop := forall k k', a <= k -> k < k' -> k' < b -> s.[k] < s.[k'].

Lemma merge_children_wp s u1 u2 del l1 l2 (Q : _ -> Prop) : u1 <= length s -> u2 <= length s -> length del = length s ->
  (forall del', length del' = length s ->
     (forall q, del'.[q] = true -> del.[q] = true \/ hit s l1 u1 l2 u2 q) ->
     (forall q, del.[q] = true -> del'.[q] = true) ->
     (incr s l1 u1 -> incr s l2 u2 -> forall q, hit s l1 u1 l2 u2 q -> del'.[q] = true) -> Q del') ->
  wp (merge_children s u1 u2 del l1 l2) Q.
Proof.
  intros H1 H2 HD HQ. unfold merge_children. wp1.
  apply (wp_while (fun st : list bool * nat * nat => let '(d, a, b) := st in length d = length s /\ l1 <= a /\ l2 <= b /\
      (forall q, d.[q] = true -> del.[q] = true \/ (l1 <= q < a /\ q < u1 /\ exists q2, l2 <= q2 < b /\ q2 < u2 /\ s.[q] = s.[q2])) /\
      (forall q, del.[q] = true -> d.[q] = true) /\
      (incr s l1 u1 -> incr s l2 u2 ->
         (forall q, l1 <= q < a -> hit s l1 u1 l2 u2 q -> d.[q] = true) /\
         (forall q q2, a <= q < u1 -> l2 <= q2 < b -> q2 < u2 -> s.[q] <> s.[q2])))
    (fun st => let '(_, a, b) := st in u1 - a + (u2 - b))).
  - splits; auto. intros _ _. split; intros; lia.
  - lia.
  - intros ((d & a) & b) (D1 & D2 & D3 & D4 & D5 & D6). wp1.
    destruct (Nat.ltb_spec a u1) as [Ha|Ha]; cbn [andb].
    2:{ wp1. apply HQ; auto.
        - intros q Hq. destruct (D4 q Hq) as [|(K1 & K2 & q2 & K3 & K4 & K5)]; auto. right. split; [lia|]. exists q2. split; [lia|auto].
        - intros I1 I2 q Hh. destruct (D6 I1 I2) as (K & _). apply K; auto. destruct Hh. lia. }
    destruct (Nat.ltb_spec b u2) as [Hb|Hb].
    2:{ wp1. apply HQ; auto.
        - intros q Hq. destruct (D4 q Hq) as [|(K1 & K2 & q2 & K3 & K4 & K5)]; auto. right. split; [lia|]. exists q2. split; [lia|auto].
        - intros I1 I2 q Hh. destruct (D6 I1 I2) as (K & K'). destruct (Nat.lt_ge_cases q a); [apply K; auto; destruct Hh; lia|].
          destruct Hh as (Hh1 & q2 & Hh2 & Hh3). exfalso. apply (K' q q2); auto; lia. }
    wp1. wp1; [lia|]. wp1. wp1; [lia|].
    destruct (Nat.eqb_spec s.[a] s.[b]) as [E|E].
    + wp1. wp1; [lia|]. wp1. split; [|lia]. rewrite upd_length. splits; auto; try lia.
      * intros q Hq. apply aget_bool_upd in Hq; [|lia]. destruct Hq as [->|Hq].
        -- right. splits; try lia. exists b. splits; auto; lia.
        -- destruct (D4 q Hq) as [|(K1 & K2 & q2 & K3 & K4 & K5)]; auto. right. splits; try lia. exists q2. splits; auto; lia.
      * intros q Hq. apply aget_bool_upd; [lia|]. auto.
      * intros I1 I2. destruct (D6 I1 I2) as (K & K'). split.
        -- intros q Hq Hh. apply aget_bool_upd; [lia|]. destruct (Nat.eq_dec q a); auto. right. apply K; auto. lia.
        -- intros q q2 Hq Hq2 Hu. destruct (Nat.eq_dec q2 b) as [->|]; [|apply K'; lia]. rewrite <- E. pose proof (I1 a q ltac:(lia) ltac:(lia) ltac:(lia)). lia.
    + destruct (Nat.ltb_spec s.[a] s.[b]) as [L|L]; wp1; (split; [|lia]); splits; auto; try lia.
      * intros q Hq. destruct (D4 q Hq) as [|(K1 & K2 & q2 & K3 & K4 & K5)]; auto. right. splits; try lia. exists q2. splits; auto; lia.
      * intros I1 I2. destruct (D6 I1 I2) as (K & K'). split.
        -- intros q Hq Hh. destruct (Nat.eq_dec q a) as [->|]; [|apply K; auto; lia]. destruct Hh as (_ & q2 & Hq2 & Eq). exfalso.
           destruct (Nat.lt_ge_cases q2 b) as [Hlt|Hge]; [apply (K' a q2); auto; lia|].
           destruct (Nat.eq_dec q2 b) as [->|]; [lia|]. pose proof (I2 b q2 ltac:(lia) ltac:(lia) ltac:(lia)). lia.
        -- intros q q2 Hq Hq2 Hu. apply K'; auto; lia.
      * intros q Hq. destruct (D4 q Hq) as [|(K1 & K2 & q2 & K3 & K4 & K5)]; auto. right. splits; try lia. exists q2. splits; auto; lia.
      * intros I1 I2. destruct (D6 I1 I2) as (K & K'). split; auto.
        intros q q2 Hq Hq2 Hu. destruct (Nat.eq_dec q2 b) as [->|]; [|apply K'; lia].
        destruct (Nat.eq_dec q a) as [->|]; auto. pose proof (I1 a q ltac:(lia) ltac:(lia) ltac:(lia)). lia.
Qed.

Section Trans.
Variables (n : nat) (p s : list nat).
Hypothesis W : wf_csc n p s.

(** entry [q] of column [i] is an entry of the column of another entry of column [i]; first
    entries do not count *)
Definition detour (i q : nat) : Prop :=
  i < n /\ p.[i] < q < p.[S i] /\ exists kq q2, p.[i] < kq < p.[S i] /\ p.[s.[kq]] < q2 < p.[S s.[kq]] /\ s.[q] = s.[q2].

Definition del_sound (del : list bool) : Prop := forall q, del.[q] = true -> exists i, detour i q.
Definition del_complete (i : nat) (del : list bool) : Prop := forall i' q, i' < i -> detour i' q -> del.[q] = true.

Lemma incr_cols i : sorted_cols n p s -> i < n -> incr s (S p.[i]) p.[S i].
Proof. intros HS Hi k k' H1 H2 H3. apply (HS i); auto; lia. Qed.

Lemma transitive_edges_wp (Q : _ -> Prop) : length s = p.[n] ->
  (forall del, length del = length s -> del_sound del -> (sorted_cols n p s -> del_complete n del) -> Q del) ->
  wp (transitive_edges n p s) Q.
Proof.
  intros HLs HQ. unfold transitive_edges. pose proof W as (W1 & W2 & W3 & W4 & W5).
  apply (wp_for (fun i del => length del = length s /\ del_sound del /\ (sorted_cols n p s -> del_complete i del))); [lia| | |].
  - rewrite repeat_length. splits; auto.
    + intros q Hq. destruct (Nat.lt_ge_cases q (length s)); [rewrite aget_repeat in Hq by auto; discriminate|].
      rewrite aget_overflow in Hq by (rewrite repeat_length; auto). discriminate.
    + intros _ i' q Hi. lia.
  - intros i del Hi (D1 & D2 & D3). destruct (Lp_le n p s W i ltac:(lia)) as (B1 & B2 & B3).
    wp1. wp1; [lia|]. wp1. wp1; [lia|].
    destruct (Nat.eq_dec p.[i] p.[S i]) as [Ee|Ee].
    { rewrite for_nil by lia. wp1. splits; auto. intros HS i' q Hi' Hd. destruct (Nat.eq_dec i' i) as [->|]; [|apply (D3 HS i'); auto; lia].
      destruct Hd as (_ & Hd & _). lia. }
    apply (wp_for (fun k del => length del = length s /\ del_sound del /\ (sorted_cols n p s -> del_complete i del /\
       forall q kq q2, p.[i] < q < p.[S i] -> p.[i] < kq < k -> p.[s.[kq]] < q2 < p.[S s.[kq]] -> s.[q] = s.[q2] -> del.[q] = true))); [lia| | |].
    + splits; auto. intros HS. split; auto. intros; lia.
    + intros kq d Hk (E1 & E2 & E3). wp1. wp1; [lia|]. assert (Hs : s.[kq] < n) by (apply W5; lia).
      destruct (Lp_le n p s W _ Hs) as (K1 & K2 & K3). wp1. wp1; [lia|]. wp1. wp1; [lia|].
      apply merge_children_wp; try lia. intros d' F1 F2 F3 F4. splits; auto.
      * intros q Hq. destruct (F2 q Hq) as [|(Hh & q2 & Hq2 & Eq)]; auto. exists i. unfold detour. splits; auto; try lia. exists kq, q2. splits; auto; lia.
      * intros HS. destruct (E3 HS) as (E4 & E5). split.
        -- intros i' q Hi' Hd. apply F3. apply (E4 i'); auto.
        -- intros q kq' q2 Hq Hkq Hq2 Eq. destruct (Nat.eq_dec kq' kq) as [->|]; [|apply F3; apply (E5 q kq' q2); auto; lia].
           apply F4; [apply incr_cols; auto; lia|apply incr_cols; auto|]. split; [lia|]. exists q2. split; [lia|auto].
    + intros d (E1 & E2 & E3). splits; auto. intros HS i' q Hi' Hd. destruct (E3 HS) as (E4 & E5).
      destruct (Nat.eq_dec i' i) as [->|]; [|apply (E4 i'); auto; lia]. destruct Hd as (_ & Hq & kq & q2 & Hkq & Hq2 & Eq). apply (E5 q kq q2); auto.
  - intros del (D1 & D2 & D3). apply HQ; auto.
Qed.

(** binary search *)
Lemma lower_bound_wp v x (Q : nat -> Prop) : sorted_lt v ->
  (forall r, r <= length v -> (forall k, k < r -> v.[k] < x) -> (forall k, r <= k < length v -> x <= v.[k]) -> Q r) ->
  wp (lower_bound v x) Q.
Proof.
  intros HS HQ. unfold lower_bound. wp1.
  apply (wp_while (fun st : nat * nat => let '(f, l) := st in f + l <= length v /\ (forall k, k < f -> v.[k] < x) /\
     (forall k, f + l <= k < length v -> x <= v.[k])) (fun st => snd st)).
  - splits; auto; intros; lia.
  - simpl. lia.
  - intros (f & l) (H1 & H2 & H3). wp1. cbn [snd]. destruct (Nat.eqb_spec l 0) as [->|Hl]; cbn [negb].
    + apply HQ; auto; [lia|]. intros k Hk. apply H3. lia.
    + cbv zeta. pose proof (Nat.div_lt l 2 ltac:(lia) ltac:(lia)). set (h := l / 2) in *. wp1. wp1; [lia|]. wp1.
      destruct (Nat.ltb_spec v.[f + h] x) as [L|L]; simpl; (split; [|lia]); splits; try lia.
      * intros k Hk. destruct (Nat.eq_dec k (f + h)) as [->|]; auto. pose proof (HS k (f + h) ltac:(lia) ltac:(lia)). lia.
      * intros k Hk. apply H3. lia.
      * auto.
      * intros k Hk. destruct (Nat.eq_dec k (f + h)) as [->|]; auto. pose proof (HS (f + h) k ltac:(lia) ltac:(lia)). lia.
Qed.

Lemma transitive_edges_slow_wp nnz (Q : _ -> Prop) : p.[n] <= nnz -> sorted_cols n p s -> (forall i, i < n -> p.[i] < p.[S i]) ->
  (forall del, length del = nnz -> del_sound del -> del_complete n del -> Q del) ->
  wp (transitive_edges_slow n nnz p s) Q.
Proof.
  intros HN HS HNE HQ. unfold transitive_edges_slow. pose proof W as (W1 & W2 & W3 & W4 & W5).
  apply (wp_for (fun i del => length del = nnz /\ del_sound del /\ del_complete i del)); [lia| | |].
  - rewrite repeat_length. splits; auto.
    + intros q Hq. destruct (Nat.lt_ge_cases q nnz); [rewrite aget_repeat in Hq by auto; discriminate|].
      rewrite aget_overflow in Hq by (rewrite repeat_length; auto). discriminate.
    + intros i' q Hi. lia.
  - intros i del Hi (D1 & D2 & D3). destruct (Lp_le n p s W i ltac:(lia)) as (B1 & B2 & B3).
    wp1. wp1; [lia|]. wp1. wp1; [lia|]. specialize (HNE i ltac:(lia)). destruct (Nat.eqb_spec p.[S i] p.[i]); [lia|].
    wp1. apply (wp_for (fun k ch => ch = slice s (S p.[i]) k)); [lia|now rewrite slice_nil| |].
    { intros k ch Hk ->. wp1. wp1; [lia|]. wp1. rewrite (slice_app s (S p.[i]) k (S k)) by lia. f_equal. rewrite slice_cons by lia. now rewrite slice_nil. }
    intros ch ->. set (ch := slice s (S p.[i]) p.[S i]).
    assert (Lch : length ch = p.[S i] - S p.[i]) by (apply slice_length; lia).
    assert (Ach : forall r, r < length ch -> ch.[r] = s.[S p.[i] + r]) by (intros r Hr; apply aget_slice; lia).
    assert (Sch : sorted_lt ch). { intros a b Hab Hb. rewrite !Ach by lia. apply (HS i); auto; lia. }
    apply (wp_for (fun k del => length del = nnz /\ del_sound del /\ del_complete i del /\
       forall q kq q2, p.[i] < q < p.[S i] -> p.[i] < kq < k -> p.[s.[kq]] < q2 < p.[S s.[kq]] -> s.[q] = s.[q2] -> del.[q] = true)); [lia| | |].
    + splits; auto. intros; lia.
    + intros kq d Hk (E1 & E2 & E3 & E5). wp1. wp1; [lia|]. assert (Hs : s.[kq] < n) by (apply W5; lia).
      destruct (Lp_le n p s W _ Hs) as (K1 & K2 & K3). wp1. wp1; [lia|]. wp1. wp1; [lia|].
      destruct (Nat.eq_dec p.[s.[kq]] p.[S s.[kq]]) as [Ek|Ek].
      { rewrite for_nil by lia. wp1. splits; auto. intros q kq' q2 Hq Hkq Hq2 Eq. destruct (Nat.eq_dec kq' kq) as [->|]; [lia|]. apply (E5 q kq' q2); auto; lia. }
      apply (wp_for (fun j del => length del = nnz /\ del_sound del /\ (forall q, d.[q] = true -> del.[q] = true) /\
         forall q q2, p.[i] < q < p.[S i] -> p.[s.[kq]] < q2 < j -> s.[q] = s.[q2] -> del.[q] = true)); [lia| | |].
      * splits; auto. intros; lia.
      * intros q2 d2 Hq2 (G1 & G2 & G3 & G4). wp1. wp1; [lia|]. wp1. apply lower_bound_wp; auto. intros r R1 R2 R3.
        destruct (Nat.ltb_spec r (length ch)) as [Hr|Hr].
        -- wp1. wp1; [lia|]. destruct (Nat.leb_spec ch.[r] s.[q2]) as [Hle|Hgt].
           ++ wp1; [lia|]. specialize (R3 r ltac:(lia)). assert (Er : ch.[r] = s.[q2]) by lia. rewrite Ach in Er by lia.
              rewrite upd_length. splits; auto.
              ** intros q Hq. apply aget_bool_upd in Hq; [|lia]. destruct Hq as [->|Hq]; auto. exists i. unfold detour. splits; auto; try lia.
                 exists kq, q2. splits; auto; lia.
              ** intros q Hq. apply aget_bool_upd; [lia|]. auto.
              ** intros q q3 Hq Hq3 Eq. apply aget_bool_upd; [lia|]. destruct (Nat.eq_dec q3 q2) as [->|]; [|right; apply (G4 q q3); auto; lia].
                 left. destruct (lt_eq_lt_dec q (S p.[i] + r)) as [[L|L]|L]; auto.
                 --- pose proof (HS i q (S p.[i] + r) ltac:(lia) ltac:(lia) L ltac:(lia)). lia.
                 --- pose proof (HS i (S p.[i] + r) q ltac:(lia) ltac:(lia) L ltac:(lia)). lia.
           ++ wp1. splits; auto. intros q q3 Hq Hq3 Eq. destruct (Nat.eq_dec q3 q2) as [->|]; [|apply (G4 q q3); auto; lia]. exfalso.
              assert (Eq' : ch.[q - S p.[i]] = s.[q2]) by (rewrite Ach by lia; rewrite <- Eq; f_equal; lia).
              destruct (Nat.lt_ge_cases (q - S p.[i]) r) as [L|L]; [specialize (R2 _ L); lia|].
              destruct (Nat.eq_dec (q - S p.[i]) r) as [Er|Er]; [rewrite Er in Eq'; lia|].
              pose proof (Sch r (q - S p.[i]) ltac:(lia) ltac:(lia)). lia.
        -- wp1. splits; auto. intros q q3 Hq Hq3 Eq. destruct (Nat.eq_dec q3 q2) as [->|]; [|apply (G4 q q3); auto; lia]. exfalso.
           specialize (R2 (q - S p.[i]) ltac:(lia)). rewrite Ach in R2 by lia. replace (S p.[i] + (q - S p.[i])) with q in R2 by lia. lia.
      * intros d2 (G1 & G2 & G3 & G4). splits; auto.
        -- intros i' q Hi' Hd. apply G3. apply (E3 i'); auto.
        -- intros q kq' q2 Hq Hkq Hq2 Eq. destruct (Nat.eq_dec kq' kq) as [->|]; [|apply G3; apply (E5 q kq' q2); auto; lia]. apply (G4 q q2); auto.
    + intros d (E1 & E2 & E3 & E5). splits; auto. intros i' q Hi' Hd.
      destruct (Nat.eq_dec i' i) as [->|]; [|apply (E3 i'); auto; lia]. destruct Hd as (_ & Hq & kq & q2 & Hkq & Hq2 & Eq). apply (E5 q kq q2); auto.
  - intros del (D1 & D2 & D3). apply HQ; auto.
Qed.

(** * Compaction *)

Definition kept (del : list bool) (u : nat) : list nat :=
  map (aget s) (filter (fun q => negb del.[q]) (seq p.[u] (p.[S u] - p.[u]))).

Lemma resize_length v m x : length (resize v m x) = m.
Proof.
  unfold resize. destruct (Nat.leb_spec (length v) m); [rewrite app_length, repeat_length; lia|rewrite firstn_length; lia].
Qed.

Lemma resize_first v m : 0 < m -> (resize v m 0).[0] = v.[0].
Proof.
  intros Hm. unfold resize. destruct (Nat.leb_spec (length v) m) as [H|H].
  - destruct v as [|x v]; [|reflexivity]. simpl. rewrite Nat.sub_0_r. rewrite aget_repeat by auto. reflexivity.
  - destruct v as [|x v]; [simpl in H; lia|]. destruct m; [lia|]. reflexivity.
Qed.

Lemma kept_edges_wp del ptr0 set0 (Q : _ -> Prop) : p.[n] <= length del ->
  (forall ptr set, columns n (kept del) (upd ptr 0 0) set -> ptr.[0] = ptr0.[0] -> Q (ptr, set0 ++ set)) ->
  wp (kept_edges n p s del ptr0 set0) Q.
Proof.
  intros HD HQ. unfold kept_edges. pose proof W as (W1 & W2 & W3 & W4 & W5).
  wp1. apply (wp_for (fun i (st : list nat * list nat * nat) => let '(ptr, set, e) := st in length ptr = S n /\
     set = set0 ++ flat_map (kept del) (seq 0 i) /\ e = length (flat_map (kept del) (seq 0 i)) /\ ptr.[0] = ptr0.[0] /\
     forall u, 0 < u <= i -> ptr.[u] = length (flat_map (kept del) (seq 0 u)))); [lia| | |].
  - rewrite resize_length. simpl. rewrite app_nil_r. splits; auto; [|intros; lia]. apply resize_first. lia.
  - intros i ((ptr & set) & e) Hi (P1 & -> & -> & P4 & P5). destruct (Lp_le n p s W i ltac:(lia)) as (B1 & B2 & B3).
    wp1. wp1; [lia|]. wp1. wp1; [lia|]. wp1.
    set (part := fun k => map (aget s) (filter (fun q => negb del.[q]) (seq p.[i] (k - p.[i])))).
    apply (wp_for (fun k (st : list nat * list nat * nat) => let '(ptr1, set1, e1) := st in ptr1 = ptr /\
       set1 = set0 ++ flat_map (kept del) (seq 0 i) ++ part k /\ e1 = length (flat_map (kept del) (seq 0 i) ++ part k))); [lia| | |].
    + unfold part. rewrite Nat.sub_diag. simpl. rewrite app_nil_r. auto.
    + intros k ((ptr1 & set1) & e1) Hk (-> & -> & ->). wp1. wp1; [lia|].
      assert (EP : part (S k) = part k ++ (if del.[k] then [] else [s.[k]])).
      { unfold part. replace (S k - p.[i]) with (S (k - p.[i])) by lia. rewrite seq_S, filter_app, map_app. f_equal.
        replace (p.[i] + (k - p.[i])) with k by lia. simpl. destruct del.[k]; reflexivity. }
      rewrite EP. destruct del.[k].
      * wp1. rewrite app_nil_r. auto.
      * wp1. wp1; [lia|]. wp1. splits; auto; [now rewrite <- !app_assoc|]. rewrite !app_length. simpl. lia.
    + intros ((ptr1 & set1) & e1) (-> & -> & ->). wp1. wp1; [lia|]. wp1. rewrite upd_length. rewrite flat_map_S.
      change (kept del i) with (part p.[S i]). splits; auto.
      * rewrite aget_upd_ne by lia. auto.
      * intros u Hu. destruct (Nat.eq_dec u (S i)) as [->|]; [rewrite aget_upd_eq by lia; now rewrite flat_map_S|].
        rewrite aget_upd_ne by auto. apply P5. lia.
  - intros ((ptr & set) & e) (P1 & -> & _ & P4 & P5). wp1. apply HQ; auto. unfold columns. rewrite upd_length. splits; auto.
    intros u Hu. destruct u as [|u]; [rewrite aget_upd_eq by lia; reflexivity|]. rewrite aget_upd_ne by lia. apply P5. lia.
Qed.
End Trans.
