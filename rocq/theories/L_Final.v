(** Proofs about the graph of the parts of a schedule. *)
From Coq Require Import List Arith Lia Bool Permutation ZifyBool ZifyNat.
From Verif Require Import Base Lib Lib2 Lib3 Spec SpecSolve SpecGroup M_Mat M_Group L_Group.
Import ListNotations.

Section Final.
Variables (n : nat) (Lp Li : list nat) (no : nat) (lp ptr nd : list nat).
Hypothesis W : wf_csc n Lp Li.
Hypothesis SW : sched_wf n no lp ptr nd.
Hypothesis SC : sched_complete n nd.
Notation E := (edge n Lp Li).

(** the cut points after [j] parts *)
Definition fcut (gp : list nat) (j : nat) : Prop :=
  0 < length gp /\ gp.[0] = 0 /\ (forall q, S q < length gp -> gp.[q] < gp.[S q]) /\ gp.[length gp - 1] = ptr.[j] /\
  forall b, In b gp <-> exists p, p <= j /\ ptr.[p] = b.

Lemma fcut_step gp j : fcut gp j -> ptr.[j] <= ptr.[S j] ->
  fcut (if gp.[length gp - 1] =? ptr.[S j] then gp else gp ++ [ptr.[S j]]) (S j).
Proof.
  intros (F1 & F2 & F3 & F4 & F5) Hle. rewrite F4. destruct (Nat.eqb_spec ptr.[j] ptr.[S j]) as [Ej|Ej]; unfold fcut.
  - splits; auto; [congruence|]. intros b. rewrite F5. split.
    + intros (p & Hp & Eb). exists p. split; auto.
    + intros (p & Hp & Eb). destruct (Nat.eq_dec p (S j)) as [->|]; [exists j; split; auto; congruence|exists p; split; auto; lia].
  - rewrite app_length. simpl length. splits.
    + lia.
    + now rewrite aget_app1 by lia.
    + intros q Hq. rewrite aget_app1 by lia. destruct (Nat.eq_dec (S q) (length gp)) as [Eq|].
      * rewrite Eq, aget_app_last. replace q with (length gp - 1) by lia. lia.
      * rewrite aget_app1 by lia. apply F3. lia.
    + replace (length gp + 1 - 1) with (length gp) by lia. apply aget_app_last.
    + intros b. rewrite in_app_iff, F5. simpl. split.
      * intros [(p & Hp & Eb)|[<-|[]]]; [exists p; split; auto|exists (S j); auto].
      * intros (p & Hp & Eb). destruct (Nat.eq_dec p (S j)) as [->|]; auto. left. exists p. split; auto. lia.
Qed.

Lemma ptr_bound j : j <= lp.[no] -> ptr.[j] <= n.
Proof. intros Hj. destruct SW as (A1 & A2 & A3 & A4 & A5 & A6 & A7 & A8). rewrite <- A7. apply (mono_le (aget ptr) lp.[no]); auto. Qed.

Lemma final_groups_wp (Q : _ -> Prop) :
  (forall gp gs, fcut gp lp.[no] -> length gs = n -> (forall k, k < n -> gs.[k] = nd.[k]) -> Q (gp, gs)) ->
  wp (final_groups n no lp ptr nd) Q.
Proof.
  intros HQ. unfold final_groups. pose proof SW as (A1 & A2 & A3 & A4 & A5 & A6 & A7 & A8). wp1.
  apply (wp_cols (fun j (st : list nat * list nat * nat) => let '(gp, gs, c) := st in j <= lp.[no] ->
    fcut gp j /\ c = ptr.[j] /\ length gs = n /\ forall k, k < c -> gs.[k] = nd.[k])); auto.
  - intros _. splits; auto.
    + unfold fcut. simpl. splits; auto; try lia. intros b. split.
      * intros [<-|[]]. exists 0. split; auto.
      * intros (p & Hp & <-). left. assert (p = 0) by lia. subst. auto.
    + apply repeat_length.
    + intros k Hk. lia.
  - intros i j ((gp, gs), c) Hi Hj HI.
    assert (Hj2 : S j <= lp.[no]). { assert (lp.[S i] <= lp.[no]) by (apply (mono_le (aget lp) no); auto; lia). lia. }
    destruct (HI ltac:(lia)) as (FC & -> & HL & HG). specialize (A6 j ltac:(lia)). pose proof (ptr_bound (S j) Hj2).
    wp1. wp1; [lia|]. wp1. wp1; [lia|]. wp1.
    apply (wp_for (fun k (st : list nat * nat) => let '(gs, c) := st in c = k /\ length gs = n /\ forall k, k < c -> gs.[k] = nd.[k])); auto.
    + intros k (gs1, c1) Hk (-> & HL1 & HG1). wp1. wp1; [lia|]. wp1. wp1; [lia|]. wp1. rewrite upd_length. splits; auto.
      intros q Hq. destruct (Nat.eq_dec q k) as [->|]; [now rewrite aget_upd_eq by lia|]. rewrite aget_upd_ne by auto. apply HG1. lia.
    + intros (gs1, c1) (-> & HL1 & HG1). wp1. apply wp_back; [apply FC|]. wp1. intros _. splits; auto. now apply fcut_step.
  - intros ((gp, gs), c) HI. destruct (HI ltac:(lia)) as (FC & -> & HL & HG). wp1. apply HQ; auto. rewrite A7 in HG. auto.
Qed.

(** groups and parts *)
Section Parts.
Variables (gp gs : list nat).
Hypothesis FC : fcut gp lp.[no].
Hypothesis HL : length gs = n.
Hypothesis HG : forall k, k < n -> gs.[k] = nd.[k].
Notation ng := (length gp - 1).

Lemma final_grouping : grouping n ng gp gs.
Proof.
  destruct FC as (F1 & F2 & F3 & F4 & F5). pose proof SW as (A1 & A2 & A3 & A4 & A5 & A6 & A7 & A8). destruct SC as (C1 & C2).
  unfold grouping, group_partition, level_partition. splits; auto; try lia.
  - intros l Hl. specialize (F3 l ltac:(lia)). lia.
  - intros i Hi. rewrite HG by auto. auto.
  - intros i j Hi Hj. rewrite !HG by auto. auto.
  - intros g Hg. apply F3. lia.
Qed.

(** a group is the position range of a part *)
Lemma final_group_part g : g < ng -> exists p, p < lp.[no] /\ gp.[g] = ptr.[p] /\ gp.[S g] = ptr.[S p].
Proof.
  intros Hg. destruct FC as (F1 & F2 & F3 & F4 & F5). pose proof SW as (A1 & A2 & A3 & A4 & A5 & A6 & A7 & A8).
  pose proof (F3 g ltac:(lia)) as Hlt.
  assert (Hs : exists p, p <= lp.[no] /\ ptr.[p] = gp.[S g]) by (apply F5, aget_In; lia).
  destruct Hs as (pe & Hpe & Epe).
  assert (HB : exists p, p < lp.[no] /\ ptr.[p] <= gp.[g] < ptr.[S p]).
  { destruct (bucket_exists (aget ptr) lp.[no] gp.[g]) as (p & B1 & B2); [lia| |exists p; auto].
    pose proof (ptr_bound pe Hpe). rewrite A7. lia. }
  destruct HB as (p & Hp & B). exists p. 
  assert (HMg : forall a b, a <= b -> b <= ng -> gp.[a] <= gp.[b]).
  { apply (mono_le (aget gp)). intros i Hi. specialize (F3 i ltac:(lia)). lia. }
  assert (HN : forall q, q <= lp.[no] -> ptr.[q] <= gp.[g] \/ gp.[S g] <= ptr.[q]).
  { intros q Hq. assert (Hin : In ptr.[q] gp) by (apply F5; exists q; auto). apply In_aget in Hin. destruct Hin as (a & Ha & Ea).
    destruct (le_lt_dec a g) as [L|L]; [left|right]; rewrite <- Ea; apply HMg; lia. }
  assert (HMp : forall a b, a <= b -> b <= lp.[no] -> ptr.[a] <= ptr.[b]) by (apply (mono_le (aget ptr)); auto).
  splits; auto.
  - assert (Hb : exists q, q <= lp.[no] /\ ptr.[q] = gp.[g]) by (apply F5, aget_In; lia). destruct Hb as (q & Hq & Eq).
    destruct (le_lt_dec q p) as [L|L].
    + pose proof (HMp q p L ltac:(lia)). lia.
    + pose proof (HMp (S p) q ltac:(lia) ltac:(lia)). lia.
  - destruct (HN (S p) ltac:(lia)) as [|Hge]; [lia|].
    destruct (le_lt_dec pe p) as [L|L].
    + pose proof (HMp pe p L ltac:(lia)). lia.
    + pose proof (HMp (S p) pe ltac:(lia) ltac:(lia)). lia.
Qed.

(** a non-empty part is a group *)
Lemma final_part_group p : p < lp.[no] -> ptr.[p] < ptr.[S p] -> exists g, g < ng /\ gp.[g] = ptr.[p] /\ gp.[S g] = ptr.[S p].
Proof.
  intros Hp Hlt. destruct FC as (F1 & F2 & F3 & F4 & F5). pose proof SW as (A1 & A2 & A3 & A4 & A5 & A6 & A7 & A8).
  pose proof (ptr_bound (S p) ltac:(lia)).
  destruct (bucket_exists (aget gp) ng ptr.[p]) as (g & B1 & B2); [lia|rewrite F4, A7; lia|].
  destruct (final_group_part g B1) as (q & Hq & E1 & E2). exists g. split; auto.
  assert (q = p); [|subst; auto]. apply (bucket_unique (aget ptr) lp.[no] q p ptr.[p]); auto. lia.
Qed.

(** edges between groups go forward *)
Lemma final_forward : sched_grouped E no lp ptr nd -> forall g h, quotient E ng gp gs g h -> g < h.
Proof.
  intros SG g h (Hg & Hh & Hne & u & v & (ku & Hu & Eu) & (kv & Hv & Ev) & He).
  pose proof SW as (A1 & A2 & A3 & A4 & A5 & A6 & A7 & A8). pose proof FC as (F1 & F2 & F3 & F4 & F5).
  destruct (final_group_part g Hg) as (p & Hp & P1 & P2). destruct (final_group_part h Hh) as (q & Hq & Q1 & Q2).
  assert (HB : forall p, p < lp.[no] -> exists l, l < no /\ lp.[l] <= p < lp.[S l]).
  { intros r Hr. destruct (bucket_exists (aget lp) no r) as (l & B1 & B2); [lia|auto|exists l; auto]. }
  destruct (HB p Hp) as (lu & Hlu & Blu). destruct (HB q Hq) as (lv & Hlv & Blv).
  pose proof (ptr_bound (S p) Hp). pose proof (ptr_bound (S q) Hq).
  assert (X : lu < lv \/ (lu = lv /\ p = q)).
  { apply (SG u v lu p ku lv q kv He Hlu Hlv); unfold sched_at; splits; auto; try lia; rewrite <- HG by lia; auto. }
  assert (HMg : forall a b, a <= b -> b <= ng -> gp.[a] <= gp.[b]).
  { apply (mono_le (aget gp)). intros i Hi. specialize (F3 i ltac:(lia)). lia. }
  destruct X as [Hll|(_ & ->)].
  - assert (p < q). { pose proof (mono_le (aget lp) no A3 (S lu) lv ltac:(lia) ltac:(lia)). lia. }
    pose proof (mono_le (aget ptr) lp.[no] A6 (S p) q ltac:(lia) ltac:(lia)).
    destruct (Nat.lt_ge_cases g h) as [|Hge]; auto. pose proof (HMg (S h) g ltac:(lia) ltac:(lia)).
    specialize (F3 h ltac:(lia)). lia.
  - elim Hne. apply (bucket_unique (aget gp) ng g h ku); auto; try lia.
Qed.
End Parts.
End Final.
