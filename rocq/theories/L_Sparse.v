(** Proofs about clique detection. *)
From Coq Require Import ZifyBool ZifyNat.
From Verif Require Import Base Lib Lib2 Lib3 Spec M_Sparse.

Section Clique.
Variables (n : nat) (Lp Li : list nat).
Hypothesis W : wf_csc n Lp Li.
Notation len u := (Lp.[S u] - Lp.[u]).

(** column [l] is what column [a] holds after its first [l - a] entries *)
Definition twin (a l : nat) : Prop :=
  a <= l /\ len a = len l + (l - a) /\ forall r, r < len l -> Li.[Lp.[a] + (l - a) + r] = Li.[Lp.[l] + r].

Lemma twin_refl a : twin a a.
Proof. unfold twin. splits; auto; try lia. intros r Hr. f_equal. lia. Qed.

(** nodes of a clique: the next column is the tail of this one *)
Definition tail_col (j : nat) : Prop :=
  S j < n /\ len j = S (len (S j)) /\ forall r, r < len (S j) -> Li.[Lp.[j] + S r] = Li.[Lp.[S j] + r].

Lemma twin_tail a j : twin a j -> twin a (S j) -> S j < n -> tail_col j.
Proof.
  intros (A1 & A2 & A3) (B1 & B2 & B3) Hj. unfold tail_col. splits; auto; [lia|]. intros r Hr.
  rewrite <- B3 by auto. rewrite <- A3 by lia. f_equal. lia.
Qed.

Definition is_clique (a b : nat) : Prop := a < b /\ b <= n /\ forall l, a <= l < b -> twin a l.

Lemma Lp_le i : i < n -> Lp.[i] <= Lp.[S i] /\ Lp.[S i] <= Lp.[n] /\ Lp.[n] <= length Li.
Proof.
  intros Hi. destruct W as (W1 & W2 & W3 & W4 & W5). splits; auto. apply (mono_le (aget Lp) n); auto; lia.
Qed.

Lemma same_tail_wp first last diff off (Q : bool -> Prop) : first < n -> last < n ->
  Lp.[first] + diff + off <= Lp.[S first] -> Lp.[last] + off <= Lp.[S last] ->
  (forall b, (b = true -> forall r, r < off -> Li.[Lp.[first] + diff + r] = Li.[Lp.[last] + r]) -> Q b) ->
  wp (same_tail Lp Li first last diff off) Q.
Proof.
  intros Hf Hl H1 H2 HQ. unfold same_tail. pose proof (Lp_le _ Hf). pose proof (Lp_le _ Hl). destruct W as (W1 & _).
  apply (wp_forb (fun k b => b = true /\ forall r, r < k -> Li.[Lp.[first] + diff + r] = Li.[Lp.[last] + r])); [lia| | |].
  - split; auto. intros r Hr. lia.
  - intros row b Hrow (-> & HI). wp1. wp1; [lia|]. wp1. wp1; [lia|]. wp1. wp1; [lia|]. wp1. wp1; [lia|]. wp1.
    destruct (Nat.eqb_spec Li.[Lp.[first] + row + diff] Li.[Lp.[last] + row]) as [E|E]; simpl.
    + split; auto. intros r Hr. destruct (Nat.eq_dec r row) as [->|]; [|apply HI; lia].
      rewrite <- E. f_equal. lia.
    + apply HQ. discriminate.
  - intros b (-> & HI). apply HQ. auto.
Qed.

Lemma clique_width_wp first (Q : nat -> Prop) : first < n ->
  (forall w, 0 < w -> is_clique first (first + w) -> Q w) -> wp (clique_width n Lp Li first) Q.
Proof.
  intros Hf HQ. unfold clique_width. pose proof W as (W1 & _). wp1.
  apply (wp_while (fun st : nat * nat * bool => let '(w, l, _) := st in 0 < w /\ l = first + w /\ l <= n /\ forall k, first <= k < l -> twin first k)
    (fun st => let '(w, l, stop) := st in if stop then 0 else S (n - l))).
  - splits; try lia. intros k Hk. assert (k = first) by lia. subst. apply twin_refl.
  - lia.
  - intros ((w & l) & stop) (Hw & El & Hl & HT). wp1.
    destruct stop; simpl; [apply HQ; auto; unfold is_clique; rewrite <- El; splits; auto; lia|].
    destruct (Nat.ltb_spec l n) as [Hln|]; simpl; [|apply HQ; auto; unfold is_clique; rewrite <- El; splits; auto; lia].
    destruct (Nat.ltb_spec w n); simpl; [|apply HQ; auto; unfold is_clique; rewrite <- El; splits; auto; lia].
    wp1. wp1; [lia|]. wp1. wp1; [lia|]. wp1. wp1; [lia|]. wp1. wp1; [lia|].
    pose proof (Lp_le l Hln). pose proof (Lp_le first Hf).
    destruct (Nat.eqb_spec (len first) (len l + (l - first))) as [E|E]; cbn [negb].
    2:{ wp1. split; [splits; auto|lia]. }
    wp1. apply same_tail_wp; auto; try lia. intros b Hb. wp1. destruct b; [|split; [splits; auto|lia]].
    split; [|lia]. splits; try lia. intros k Hk. destruct (Nat.eq_dec k l) as [->|]; [|apply HT; lia].
    unfold twin. splits; auto; lia.
Qed.

(** beyond the last column the width is one *)
Lemma clique_width_out first : n <= first -> clique_width n Lp Li first = Ok 1.
Proof.
  intros Hf. unfold clique_width. simpl. destruct (Nat.ltb_spec (S first) n); [lia|]. reflexivity.
Qed.

(** the cut points of one thread *)
Definition cuts_ok (start end_ : nat) (cuts : list nat) : Prop :=
  0 < length cuts /\ cuts.[0] = start /\ end_ <= cuts.[length cuts - 1] /\
  forall i, S i < length cuts -> start + i <= cuts.[i] /\ cuts.[i] < end_ /\ is_clique cuts.[i] cuts.[S i].

Lemma thread_cuts_wp start end_ (Q : _ -> Prop) : start <= end_ -> end_ <= n ->
  (forall cuts, cuts_ok start end_ cuts -> Q cuts) -> wp (thread_cuts n Lp Li start end_) Q.
Proof.
  intros Hs He HQ. unfold thread_cuts. wp1.
  apply (wp_while (fun st : list nat * nat => let '(cuts, col) := st in 0 < length cuts /\ cuts.[0] = start /\ cuts.[length cuts - 1] = col /\
     start + (length cuts - 1) <= col /\
     forall i, S i < length cuts -> start + i <= cuts.[i] /\ cuts.[i] < end_ /\ is_clique cuts.[i] cuts.[S i])
    (fun st => end_ - snd st)).
  - simpl. splits; auto; try lia; intros; lia.
  - simpl. lia.
  - intros (cuts & col) (C1 & C2 & C3 & C4 & C5). wp1. simpl. destruct (Nat.ltb_spec col end_) as [Hlt|Hge].
    + wp1. apply clique_width_wp; [lia|]. intros w Hw HC. wp1. simpl. rewrite app_length. simpl. split; [|lia]. splits; auto; try lia.
      * now rewrite aget_app1 by lia.
      * replace (length cuts + 1 - 1) with (length cuts) by lia. apply aget_app_last.
      * intros i Hi. rewrite (aget_app1 _ _ i) by lia. destruct (Nat.eq_dec (S i) (length cuts)) as [E|E].
        -- rewrite E, aget_app_last. replace i with (length cuts - 1) by lia. rewrite C3. splits; auto; lia.
        -- rewrite aget_app1 by lia. apply C5. lia.
    + apply HQ. unfold cuts_ok. splits; auto; lia.
Qed.

(** * The labels *)

Variable bins : nat.
Hypothesis HB : 0 < bins.

Lemma thread_range t : t < bins -> thread_start n bins t <= thread_end n bins t /\ thread_end n bins t <= n.
Proof.
  intros Ht. unfold thread_start, thread_end.
  assert (H : n / bins * bins <= n) by (rewrite Nat.mul_comm; apply Nat.mul_div_le; lia).
  assert (H2 : n / bins * (t + 1) <= n / bins * bins) by (apply Nat.mul_le_mono_l; lia).
  assert (H3 : n / bins * t <= n / bins * (t + 1)) by (apply Nat.mul_le_mono_l; lia).
  destruct (t =? bins - 1); lia.
Qed.

Lemma thread_range_next t t' : t < t' -> t' < bins -> thread_end n bins t <= thread_start n bins t'.
Proof.
  intros Ht Ht'. unfold thread_start, thread_end. destruct (Nat.eqb_spec t (bins - 1)); [lia|]. apply Nat.mul_le_mono_l. lia.
Qed.

(** every node is in the columns of a thread *)
Lemma thread_range_all j : j < n -> exists t, t < bins /\ thread_start n bins t <= j < thread_end n bins t.
Proof.
  intros Hj. unfold thread_start, thread_end. set (q := n / bins).
  destruct (Nat.lt_ge_cases j (q * (bins - 1))) as [Hlt|Hge].
  - assert (0 < q) by (destruct q; lia).
    exists (j / q). assert (j / q < bins - 1) by (apply Nat.div_lt_upper_bound; lia).
    destruct (Nat.eqb_spec (j / q) (bins - 1)); [lia|]. split; [lia|].
    pose proof (Nat.mul_div_le j q ltac:(lia)). pose proof (Nat.mul_succ_div_gt j q ltac:(lia)).
    replace (j / q + 1) with (S (j / q)) by lia. lia.
  - exists (bins - 1). rewrite Nat.eqb_refl. split; lia.
Qed.

(** label [v] of node [j] names a clique that holds [j] *)
Definition named (C : nat -> list nat) (j v : nat) : Prop :=
  exists t i, t < bins /\ S i < length (C t) /\ v = i + thread_start n bins t /\ (C t).[i] <= j < (C t).[S i].

Definition all_cuts (C : nat -> list nat) : Prop :=
  forall t, t < bins -> cuts_ok (thread_start n bins t) (thread_end n bins t) (C t).

Lemma named_clique C j j' v : all_cuts C -> named C j v -> named C j' v ->
  exists a b, is_clique a b /\ a <= j < b /\ a <= j' < b.
Proof.
  intros AC (t & i & Ht & Hi & Ev & Hj) (t' & i' & Ht' & Hi' & Ev' & Hj').
  destruct (AC t Ht) as (_ & _ & _ & A). destruct (AC t' Ht') as (_ & _ & _ & A').
  destruct (A i Hi) as (A1 & A2 & A3). destruct (A' i' Hi') as (B1 & B2 & B3).
  assert (t = t').
  { destruct (lt_eq_lt_dec t t') as [[L|L]|L]; auto.
    - pose proof (thread_range_next t t' L Ht'). lia.
    - pose proof (thread_range_next t' t L Ht). lia. }
  subst t'. assert (i = i') by lia. subst i'. exists (C t).[i], (C t).[S i]. auto.
Qed.

Lemma cuts_mono start end_ cuts : cuts_ok start end_ cuts -> forall i, i < length cuts - 1 -> cuts.[i] <= cuts.[S i].
Proof. intros (_ & _ & _ & H) i Hi. destruct (H i ltac:(lia)) as (_ & _ & (H1 & _)). lia. Qed.

Lemma named_all C j : all_cuts C -> j < n -> exists v, named C j v.
Proof.
  intros AC Hj. destruct (thread_range_all j Hj) as (t & Ht & Hr). pose proof (AC t Ht) as CO. pose proof CO as (C1 & C2 & C3 & C4).
  destruct (bucket_exists (aget (C t)) (length (C t) - 1) j) as (i & I1 & I2); [lia|lia|].
  exists (i + thread_start n bins t), t, i. splits; auto; lia.
Qed.

Lemma named_zero C v : all_cuts C -> named C 0 v -> v = 0.
Proof.
  intros AC (t & i & Ht & Hi & -> & Hj). destruct (AC t Ht) as (_ & _ & _ & A). destruct (A i Hi) as (A1 & _). lia.
Qed.

(** the stores *)
Lemma do_writes_wp (P : nat -> nat -> Prop) ws mem (Q : _ -> Prop) :
  (forall w, In w ws -> fst w < length mem /\ P (fst w) (snd w)) ->
  (forall mem', length mem' = length mem ->
     (forall j, j < length mem -> P j mem'.[j] \/ ((forall w, In w ws -> fst w <> j) /\ mem'.[j] = mem.[j])) -> Q mem') ->
  wp (do_writes ws mem) Q.
Proof.
  intros HW HQ. unfold do_writes.
  apply (wp_foreach (fun pre m => length m = length mem /\
    forall j, j < length mem -> P j m.[j] \/ ((forall w, In w pre -> fst w <> j) /\ m.[j] = mem.[j]))).
  - split; [auto|]. intros j Hj. right. split; [intros w []|auto].
  - intros pre w post m E (HL & HI). destruct (HW w) as (H1 & H2); [rewrite E; apply in_or_app; right; left; auto|].
    wp1; [lia|]. rewrite upd_length. split; auto. intros j Hj. destruct (Nat.eq_dec (fst w) j) as [<-|Hn].
    + left. now rewrite aget_upd_eq by lia.
    + rewrite aget_upd_ne by auto. destruct (HI j Hj) as [|(K1 & K2)]; auto. right. split; auto.
      intros w' Hw'. apply in_app_or in Hw'. destruct Hw' as [|[<-|[]]]; auto.
  - intros m (HL & HI). apply HQ; auto.
Qed.

Lemma In_upd_nat {A} `{Dflt A} (l : list A) t x y : In y (upd l t x) -> y = x \/ In y l.
Proof.
  revert t. induction l as [|h l IH]; intros [|t]; simpl; auto.
  - intros [<-|]; auto.
  - intros [<-|Hy]; auto. apply IH in Hy. tauto.
Qed.

Lemma run_writes_wp (P : nat -> nat -> Prop) sched : forall wss mem (Q : _ -> Prop),
  (forall ws w, In ws wss -> In w ws -> fst w < length mem /\ P (fst w) (snd w)) ->
  (forall mem', length mem' = length mem ->
     (forall j, j < length mem -> P j mem'.[j] \/ ((forall ws w, In ws wss -> In w ws -> fst w <> j) /\ mem'.[j] = mem.[j])) -> Q mem') ->
  wp (run_writes sched wss mem) Q.
Proof.
  induction sched as [|t rest IH]; intros wss mem Q HW HQ; simpl.
  - apply (wp_foreach (fun pre m => length m = length mem /\
      forall j, j < length mem -> P j m.[j] \/ ((forall ws w, In ws pre -> In w ws -> fst w <> j) /\ m.[j] = mem.[j]))).
    + split; [auto|]. intros j Hj. right. split; [intros ws w []|auto].
    + intros pre ws post m E (HL & HI). apply (do_writes_wp P).
      * intros w Hw. rewrite HL. apply (HW ws); auto. rewrite E. apply in_or_app. right. left. auto.
      * intros m' HL' HI'. split; [lia|]. intros j Hj. destruct (HI' j ltac:(lia)) as [|(K1 & K2)]; auto.
        rewrite K2. destruct (HI j Hj) as [|(K3 & K4)]; auto. right. split; auto.
        intros ws' w Hws' Hw. apply in_app_or in Hws'. destruct Hws' as [|[<-|[]]]; eauto.
    + intros m (HL & HI). apply HQ; auto.
  - destruct (wss.[t]) as [|w ws] eqn:Et; [now apply IH|].
    assert (Hin : In (w :: ws) wss).
    { rewrite <- Et. apply aget_In. destruct (Nat.lt_ge_cases t (length wss)); auto. rewrite aget_overflow in Et by auto. discriminate. }
    destruct (HW _ w Hin ltac:(left; auto)) as (Hw1 & Hw2).
    wp1. wp1; [auto|]. apply IH.
    + rewrite upd_length. intros ws' w' Hws' Hw'. apply In_upd_nat in Hws'. destruct Hws' as [->|]; [|apply (HW ws'); auto].
      apply (HW (w :: ws)); auto. right. auto.
    + rewrite upd_length. intros m' HL' HI'. apply HQ; auto. intros j Hj. destruct (HI' j Hj) as [|(K1 & K2)]; auto.
      destruct (Nat.eq_dec (fst w) j) as [<-|Hn].
      * left. rewrite K2, aget_upd_eq by auto. auto.
      * rewrite K2, aget_upd_ne by auto. right. split; auto. intros ws' w' Hws' Hw'.
        destruct (In_aget _ _ Hws') as (t' & Ht' & Et'). destruct (Nat.eq_dec t' t) as [->|Hnt].
        -- rewrite Et in Et'. subst ws'. destruct Hw' as [<-|Hw']; auto. apply (K1 ws); auto.
           assert (Hx : In (upd wss t ws).[t] (upd wss t ws)) by (apply aget_In; now rewrite upd_length). now rewrite aget_upd_eq in Hx by auto.
        -- apply (K1 ws'); auto. assert (Hx : In (upd wss t ws).[t'] (upd wss t ws)) by (apply aget_In; now rewrite upd_length). rewrite aget_upd_ne, Et' in Hx by auto. auto.
Qed.

Lemma thread_writes_wp C t (Q : _ -> Prop) : cuts_ok (thread_start n bins t) (thread_end n bins t) (C t) ->
  thread_cuts n Lp Li (thread_start n bins t) (thread_end n bins t) = Ok (C t) ->
  (forall ws, (forall j v, In (j, v) ws <-> exists i, S i < length (C t) /\ v = i + thread_start n bins t /\ (C t).[i] <= j < (C t).[S i]) -> Q ws) ->
  wp (thread_writes n Lp Li bins t) Q.
Proof.
  intros CO E HQ. unfold thread_writes. cbv zeta. rewrite E. simpl. apply HQ. intros j v. rewrite in_flat_map. split.
  - intros (i & Hi & Hin). apply in_map_iff in Hin. destruct Hin as (j' & Ej & Hj'). apply in_seq in Hi. apply in_seq in Hj'.
    inversion Ej. subst. exists i. splits; auto; try lia. 
  - intros (i & Hi & -> & Hj). exists i. split; [apply in_seq; lia|]. apply in_map_iff. exists j. split; auto. apply in_seq. lia.
Qed.

Lemma clique_labels_wp sched (Q : _ -> Prop) :
  (forall C labels, all_cuts C -> length labels = n -> (forall j, j < n -> named C j labels.[j]) -> Q labels) ->
  wp (clique_labels true bins sched n Lp Li) Q.
Proof.
  intros HQ. unfold clique_labels.
  assert (HC : exists C, all_cuts C /\ forall t, t < bins -> thread_cuts n Lp Li (thread_start n bins t) (thread_end n bins t) = Ok (C t)).
  { exists (fun t => match thread_cuts n Lp Li (thread_start n bins t) (thread_end n bins t) with Ok c => c | Err _ => [] end).
    split; intros t Ht; destruct (thread_range t Ht) as (R1 & R2);
    pose proof (thread_cuts_wp _ _ (cuts_ok (thread_start n bins t) (thread_end n bins t)) R1 R2 (fun c H => H)) as G;
    destruct (thread_cuts n Lp Li (thread_start n bins t) (thread_end n bins t)); auto; contradiction. }
  destruct HC as (C & AC & HE). wp1.
  apply (wp_for (fun t (wss : list (list (nat * nat))) => length wss = t /\ forall t', t' < t -> forall j v, In (j, v) wss.[t'] <->
      exists i, S i < length (C t') /\ v = i + thread_start n bins t' /\ (C t').[i] <= j < (C t').[S i])); [lia| | |].
  - split; auto. intros; lia.
  - intros t wss Ht (HL & HI). wp1. apply (thread_writes_wp C); [apply AC; lia|apply HE; lia|]. intros ws Hws. wp1.
    rewrite app_length. simpl. split; [lia|]. intros t' Ht' j v. destruct (Nat.eq_dec t' t) as [->|].
    + rewrite <- HL at 1. rewrite aget_app_last. apply Hws.
    + rewrite aget_app1 by lia. apply HI. lia.
  - intros wss (HL & HI).
    assert (HN : forall ws w, In ws wss -> In w ws -> named C (fst w) (snd w)).
    { intros ws (j & v) Hws Hw. destruct (In_aget _ _ Hws) as (t & Ht & <-). apply HI in Hw; [|lia]. destruct Hw as (i & Hw).
      exists t, i. simpl. intuition lia. }
    apply (run_writes_wp (named C)).
    + intros ws w Hws Hw. specialize (HN ws w Hws Hw). rewrite repeat_length. split; auto.
      destruct HN as (t & i & Ht & Hi & _ & Hj). destruct (AC t Ht) as (_ & _ & _ & A). destruct (A i Hi) as (_ & _ & (_ & A3 & _)). lia.
    + rewrite repeat_length. intros m HLm HIm. apply (HQ C); auto. intros j Hj. destruct (HIm j Hj) as [|(K & _)]; auto.
      destruct (named_all C j AC Hj) as (v & t & i & Ht & Hi & Ev & Hr). exfalso.
      apply (K wss.[t] (j, v)); auto; [apply aget_In; lia|]. apply HI; [lia|]. exists i. auto.
Qed.
End Clique.
