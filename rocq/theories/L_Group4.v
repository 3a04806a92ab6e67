(** Proofs about the tree groupings. *)
From Coq Require Import ZifyBool ZifyNat.
From Verif Require Import Base Lib Lib2 Lib3 Spec SpecSolve M_Group L_Group2 L_Group3.

Lemma NoDup_app_iff {A} (l l' : list A) : NoDup (l ++ l') <-> NoDup l /\ NoDup l' /\ forall x, In x l -> ~ In x l'.
Proof.
  induction l as [|a t IH]; simpl.
  - split; [intros H|intros (_ & H & _)]; auto. splits; auto. constructor.
  - split.
    + intros H. inversion H as [|? ? H1 H2]; subst. apply IH in H2. destruct H2 as (H2 & H3 & H4). rewrite in_app_iff in H1.
      splits; auto; [constructor; auto|]. intros x [<-|Hx]; auto.
    + intros (H1 & H2 & H3). inversion H1 as [|? ? H4 H5]; subst. constructor.
      * rewrite in_app_iff. intros [H|H]; [auto|]. apply (H3 a); auto.
      * apply IH. splits; auto.
Qed.

(** ** Columns of length one and two *)

Lemma col_one_sink n Lp Li u : one_diag n Lp Li -> u < n -> Lp.[S u] - Lp.[u] = 1 -> forall w, ~ edge n Lp Li u w.
Proof.
  intros HD Hu HL w (_ & (k & Hk & E) & Hne). destruct (HD u Hu) as (k0 & (Hk0 & E0) & _).
  assert (k = k0) by lia. subst. congruence.
Qed.

Lemma sink_col_one n Lp Li u : one_diag n Lp Li -> u < n -> (forall w, ~ edge n Lp Li u w) -> Lp.[S u] - Lp.[u] = 1.
Proof.
  intros HD Hu HN. destruct (HD u Hu) as (k0 & (Hk0 & E0) & HU).
  assert (G : forall k, Lp.[u] <= k < Lp.[S u] -> k = k0).
  { intros k Hk. apply HU; auto. destruct (Nat.eq_dec Li.[k] u) as [|Hne]; auto.
    elim (HN Li.[k]). unfold edge. splits; auto. exists k. auto. }
  pose proof (G Lp.[u] ltac:(lia)). pose proof (G (Lp.[S u] - 1) ltac:(lia)). lia.
Qed.

Lemma col_two_unique n Lp Li u v w : one_diag n Lp Li -> Lp.[S u] - Lp.[u] = 2 ->
  edge n Lp Li u v -> edge n Lp Li u w -> w = v.
Proof.
  intros HD HL (Hu & (k & Hk & E) & Hne) (_ & (k' & Hk' & E') & Hne').
  destruct (HD u Hu) as (k0 & (Hk0 & E0) & HU).
  assert (k <> k0) by congruence. assert (k' <> k0) by congruence. assert (k = k') by lia. subst. auto.
Qed.

Lemma edge_col_two n Lp Li u v : one_diag n Lp Li -> edge n Lp Li u v -> 2 <= Lp.[S u] - Lp.[u].
Proof.
  intros HD (Hu & (k & Hk & E) & Hne). destruct (HD u Hu) as (k0 & (Hk0 & E0) & HU).
  assert (k <> k0) by congruence. lia.
Qed.

Section Walk.
Variables (n : nat) (Lp Li ip is : list nat).
Hypothesis W : wf_csc n Lp Li.
Hypothesis HD : one_diag n Lp Li.
Hypothesis HT : lower_tri n Lp Li.
Hypothesis PR : pred_rows n Lp Li ip is.
Notation E := (edge n Lp Li).

Lemma sink_ids_wp (Q : list nat -> Prop) :
  (forall l, NoDup l -> (forall x, In x l <-> x < n /\ forall w, ~ E x w) -> Q l) -> wp (sink_ids n Lp) Q.
Proof.
  intros HQ. unfold sink_ids. pose proof W as (W1 & _).
  apply (wp_for (fun i l => NoDup l /\ forall x, In x l <-> x < i /\ forall w, ~ E x w)).
  - lia.
  - split; [constructor|]. intros x. split; [intros []|lia].
  - intros i l Hi (HN & HI). wp1. wp1; [lia|]. wp1. wp1; [lia|]. wp1.
    destruct (Nat.eqb_spec (Lp.[S i] - Lp.[i]) 1) as [E1|E1].
    + split; [apply NoDup_snoc; auto; rewrite HI; lia|]. intros x. rewrite in_app_iff, HI. simpl. split.
      * intros [[H1 H2]|[<-|[]]]; [split; auto; lia|]. split; [lia|]. apply col_one_sink; auto; lia.
      * intros [H1 H2]. destruct (Nat.eq_dec x i); auto. left. split; auto. lia.
    + split; auto. intros x. rewrite HI. split; intros [H1 H2]; split; auto; try lia.
      destruct (Nat.eq_dec x i) as [->|]; [|lia]. elim E1. apply (sink_col_one n Lp Li); auto; lia.
  - intros l (HN & HI). apply HQ; auto.
Qed.

Lemma visit_preds_wp head vis roots queue (Q : _ -> Prop) :
  head < n -> length vis = n ->
  (forall vis' newr newq fin, length vis' = n ->
     (forall x, x < n -> (vis'.[x] = true <-> vis.[x] = true \/ In x (newr ++ newq))) ->
     NoDup (newr ++ newq) -> (forall x, In x (newr ++ newq) -> E x head /\ vis.[x] = false) ->
     (forall u, E u head -> vis'.[u] = true) ->
     (forall x, In x newq -> forall w, E x w -> w = head) ->
     Q (vis', roots ++ newr, queue ++ newq, fin)) ->
  wp (visit_preds Lp ip is head vis roots queue) Q.
Proof.
  intros Hh HLv HQ. unfold visit_preds. pose proof PR as (P1 & P2 & P3 & P4 & P5). pose proof W as (W1 & _).
  wp1. wp1; [lia|]. wp1. wp1; [lia|]. pose proof (P4 head Hh) as Hlt. pose proof (P3 (S head) ltac:(lia)) as Hle.
  apply (wp_for (fun k st => let '(vis', roots', queue', fin) := st in exists newr newq,
     roots' = roots ++ newr /\ queue' = queue ++ newq /\ length vis' = n /\
     (forall x, x < n -> (vis'.[x] = true <-> vis.[x] = true \/ In x (newr ++ newq))) /\
     NoDup (newr ++ newq) /\ (forall x, In x (newr ++ newq) -> E x head /\ vis.[x] = false) /\
     (forall j, ip.[head] <= j < k -> vis'.[is.[j]] = true) /\
     (forall x, In x newq -> forall w, E x w -> w = head))).
  - lia.
  - exists [], []. rewrite !app_nil_r. splits; auto.
    + intros x Hx. simpl. split; auto. intros [H|[]]; auto.
    + constructor.
    + intros x [].
    + intros; lia.
    + intros x [].
  - intros k (((vis' & roots') & queue') & fin) Hk (newr & newq & -> & -> & L & HV & HN & HP & HS & HU).
    assert (He : E is.[k] head) by (apply P5; eauto).
    pose proof (wf_edge_lt n Lp Li W _ _ He) as [Hx _].
    wp1. wp1; [lia|]. wp1. wp1; [lia|]. destruct vis'.[is.[k]] eqn:EV.
    + wp1. exists newr, newq. splits; auto. intros j Hj. destruct (Nat.eq_dec j k) as [->|]; auto. apply HS. lia.
    + wp1. wp1; [lia|]. wp1. wp1; [lia|]. wp1. wp1; [lia|].
      set (x := is.[k]) in *. pose proof (edge_col_two n Lp Li x head HD He) as H2.
      assert (Hnv : ~ (vis.[x] = true \/ In x (newr ++ newq))) by (rewrite <- HV by auto; congruence).
      assert (Hv0 : vis.[x] = false) by (destruct vis.[x] eqn:EE; auto; elim Hnv; auto).
      assert (HVU : forall y, y < n -> ((upd vis' x true).[y] = true <-> (vis.[y] = true \/ In y (newr ++ newq)) \/ y = x)).
      { intros y Hy. rewrite aget_upd by lia. destruct (Nat.eqb_spec y x) as [->|Hne].
        - split; auto.
        - rewrite HV by auto. split; auto. intros [H|H]; auto; congruence. }
      assert (HSU : forall j, ip.[head] <= j < S k -> (upd vis' x true).[is.[j]] = true).
      { intros j Hj. rewrite aget_upd by lia. destruct (Nat.eqb_spec is.[j] x) as [|Hne]; auto. apply HS.
        destruct (Nat.eq_dec j k) as [->|]; [elim Hne; auto|lia]. }
      destruct (Nat.ltb_spec 2 (Lp.[S x] - Lp.[x])) as [H3|H3]; [|destruct (Nat.eqb_spec (Lp.[S x] - Lp.[x]) 2) as [H4|H4]; [|lia]].
      * wp1. exists (newr ++ [x]), newq. splits; auto.
        -- now rewrite app_assoc.
        -- now rewrite upd_length.
        -- intros y Hy. rewrite HVU by auto. rewrite !in_app_iff. simpl. split; [intros [[|[|]]|]|intros [|[[|[|]]|]]]; auto; try contradiction.
        -- apply (Permutation_NoDup (l := x :: newr ++ newq)).
           { rewrite <- app_assoc. simpl. apply Permutation_middle. }
           constructor; auto.
        -- intros y Hy. rewrite !in_app_iff in Hy. simpl in Hy. destruct Hy as [[Hy|[<-|[]]]|Hy]; auto; apply HP; rewrite in_app_iff; auto.
      * wp1. exists newr, (newq ++ [x]). splits; auto.
        -- now rewrite app_assoc.
        -- now rewrite upd_length.
        -- intros y Hy. rewrite HVU by auto. rewrite !in_app_iff. simpl. split; [intros [[|[|]]|]|intros [|[|[|[|]]]]]; auto; try contradiction.
        -- rewrite app_assoc. apply NoDup_snoc; auto.
        -- intros y Hy. rewrite app_assoc, in_app_iff in Hy. simpl in Hy. destruct Hy as [Hy|[<-|[]]]; auto.
        -- intros y Hy w Hw. apply in_app_iff in Hy. simpl in Hy. destruct Hy as [Hy|[<-|[]]]; [now apply (HU y)|].
           now apply (col_two_unique n Lp Li x head w).
  - intros (((vis' & roots') & queue') & fin) (newr & newq & -> & -> & L & HV & HN & HP & HS & HU).
    apply HQ; auto. intros u Hu. apply P5 in Hu; auto. destruct Hu as (k & Hk & <-). now apply HS.
Qed.

(** ** The walk *)

(** [L]: nodes that left the stack of roots, in order; the first [d] are placed.
    [rt]: the root of the tree of a node *)
Definition walk_inv (vis : list bool) (roots L : list nat) (d : nat) (rt : nat -> nat) : Prop :=
  length vis = n /\ NoDup (L ++ roots) /\ (forall x, In x (L ++ roots) -> x < n) /\
  (forall x, x < n -> vis.[x] = true -> In x (L ++ roots)) /\
  (forall x, In x L -> vis.[x] = true) /\
  (forall x, In x (L ++ roots) -> vis.[x] = true \/ forall w, ~ E x w) /\
  (forall i, i < d -> forall u, E u L.[i] -> In u (L ++ roots)) /\
  (forall x, x < n -> (forall w, ~ E x w) -> In x (L ++ roots)) /\
  (forall i, i < length L -> rt L.[i] = L.[i] \/
     exists j, j < i /\ j < d /\ E L.[i] L.[j] /\ (forall w, E L.[i] w -> w = L.[j]) /\ rt L.[i] = rt L.[j]).

(** popping a root; [roots] and [roots'] hold the same nodes but for [x] *)
Lemma walk_inv_root vis roots roots' L rt x :
  walk_inv vis roots L (length L) rt -> Permutation roots (x :: roots') ->
  exists rt', walk_inv (upd vis x true) roots' (L ++ [x]) (length L) rt' /\ (forall y, In y L -> rt' y = rt y) /\ rt' x = x.
Proof.
  intros (I1 & I2 & I3 & I4 & I4' & I5 & I6 & I7 & I8) HP.
  assert (HPA : Permutation (L ++ roots) ((L ++ [x]) ++ roots')).
  { rewrite <- app_assoc. simpl. now apply Permutation_app_head. }
  assert (HIA : forall y, In y ((L ++ [x]) ++ roots') <-> In y (L ++ roots)).
  { intros y. split; apply Permutation_in; auto. now apply Permutation_sym. }
  assert (Hx : In x (L ++ roots)) by (apply HIA; rewrite !in_app_iff; simpl; auto).
  assert (HxL : ~ In x L).
  { intros H. assert (HN : NoDup ((L ++ [x]) ++ roots')) by (eapply Permutation_NoDup; eauto).
    rewrite <- app_assoc in HN. simpl in HN. apply NoDup_remove_2 in HN. apply HN. rewrite in_app_iff. auto. }
  pose proof (I3 x Hx) as Hxn.
  exists (fun y => if y =? x then x else rt y). splits.
  2: { intros y Hy. destruct (Nat.eqb_spec y x) as [->|]; auto. contradiction. }
  2: { now rewrite Nat.eqb_refl. }
  unfold walk_inv. splits.
  - now rewrite upd_length.
  - eapply Permutation_NoDup; eauto.
  - intros y Hy. apply I3, HIA. auto.
  - intros y Hy. rewrite aget_upd by lia. intros H. apply HIA. destruct (Nat.eqb_spec y x) as [->|]; auto.
  - intros y Hy. rewrite aget_upd by lia. destruct (Nat.eqb_spec y x) as [->|]; auto. apply I4'.
    apply in_app_iff in Hy. simpl in Hy. destruct Hy as [|[|[]]]; auto. congruence.
  - intros y Hy. apply HIA in Hy. rewrite aget_upd by lia. destruct (Nat.eqb_spec y x); auto.
  - intros i Hi u Hu. rewrite aget_app1 in Hu by lia. apply HIA. now apply (I6 i).
  - intros y Hy Hs. apply HIA. auto.
  - intros i Hi. rewrite app_length in Hi. simpl in Hi. destruct (Nat.eq_dec i (length L)) as [->|Hne].
    + left. rewrite aget_app_last, Nat.eqb_refl. auto.
    + rewrite aget_app1 by lia. destruct (Nat.eqb_spec L.[i] x) as [Ex|_].
      { elim HxL. rewrite <- Ex. apply aget_In. lia. }
      destruct (I8 i ltac:(lia)) as [H|(j & Hj & Hjd & H1 & H2 & H3)]; auto. right. exists j. rewrite aget_app1 by lia.
      splits; auto. destruct (Nat.eqb_spec L.[j] x) as [Ex|_]; auto. elim HxL. rewrite <- Ex. apply aget_In. lia.
Qed.

(** scanning the predecessors of the next node of the queue *)
Lemma walk_inv_step vis roots L d rt vis' newr newq :
  walk_inv vis roots L d rt -> d < length L -> length vis' = n ->
  (forall x, x < n -> (vis'.[x] = true <-> vis.[x] = true \/ In x (newr ++ newq))) ->
  NoDup (newr ++ newq) -> (forall x, In x (newr ++ newq) -> E x L.[d] /\ vis.[x] = false) ->
  (forall u, E u L.[d] -> vis'.[u] = true) ->
  (forall x, In x newq -> forall w, E x w -> w = L.[d]) ->
  exists rt', walk_inv vis' (roots ++ newr) (L ++ newq) (S d) rt' /\ (forall y, In y L -> rt' y = rt y) /\
    (forall y, In y newq -> rt' y = rt L.[d]).
Proof.
  intros (I1 & I2 & I3 & I4 & I4' & I5 & I6 & I7 & I8) Hd HL HV HN HE HS HU.
  assert (HIA : forall y, In y ((L ++ newq) ++ roots ++ newr) <-> In y (L ++ roots) \/ In y (newr ++ newq)).
  { intros y. rewrite !in_app_iff. tauto. }
  assert (Hnew : forall y, In y (newr ++ newq) -> y < n /\ ~ In y (L ++ roots)).
  { intros y Hy. destruct (HE y Hy) as [He Hv]. pose proof (wf_edge_lt n Lp Li W _ _ He) as [Hy' _].
    split; auto. intros Hin. destruct (I5 y Hin) as [H|H]; [congruence|]. elim (H _ He). }
  assert (HnL : forall y, In y newq -> ~ In y L).
  { intros y Hy H. apply (Hnew y); rewrite in_app_iff; auto. }
  assert (HbD : forall y, In y newq \/ ~ In y newq) by (intros y; destruct (in_dec Nat.eq_dec y newq); auto).
  exists (fun y => if in_dec Nat.eq_dec y newq then rt L.[d] else rt y). splits.
  2: { intros y Hy. destruct (in_dec Nat.eq_dec y newq) as [H|]; auto. elim (HnL y H Hy). }
  2: { intros y Hy. destruct (in_dec Nat.eq_dec y newq); auto. contradiction. }
  unfold walk_inv. splits; auto.
  - apply (Permutation_NoDup (l := (L ++ roots) ++ newr ++ newq)).
    { rewrite <- !app_assoc. apply Permutation_app_head.
      rewrite (Permutation_app_comm newq). rewrite <- app_assoc. auto. }
    apply NoDup_app_iff. splits; auto. intros y Hy Hy'. now apply (Hnew y).
  - intros y Hy. apply HIA in Hy. destruct Hy as [Hy|Hy]; auto. now apply Hnew.
  - intros y Hy Hv. apply HIA. apply HV in Hv; auto. destruct Hv; auto.
  - intros y Hy. apply in_app_iff in Hy. destruct Hy as [Hy|Hy].
    + apply HV; [|auto]. apply I3. rewrite in_app_iff. auto.
    + apply HV; [apply Hnew|right]; rewrite in_app_iff; auto.
  - intros y Hy. apply HIA in Hy. destruct Hy as [Hy|Hy].
    + destruct (I5 y Hy) as [H|H]; auto. left. apply HV; auto.
    + left. apply HV; auto. now apply Hnew.
  - intros i Hi u Hu. apply HIA. destruct (Nat.eq_dec i d) as [->|].
    + rewrite aget_app1 in Hu by lia. pose proof (wf_edge_lt n Lp Li W _ _ Hu) as [Hun _].
      apply HS in Hu. apply HV in Hu; auto. destruct Hu as [Hu|Hu]; auto.
    + rewrite aget_app1 in Hu by lia. left. apply (I6 i); auto. lia.
  - intros y Hy Hs. apply HIA. auto.
  - intros i Hi. destruct (Nat.lt_ge_cases i (length L)) as [Hi'|Hi'].
    + rewrite aget_app1 by lia. destruct (in_dec Nat.eq_dec L.[i] newq) as [H|_].
      { elim (HnL _ H). apply aget_In. auto. }
      destruct (I8 i Hi') as [H|(j & Hj & Hjd & H1 & H2 & H3)]; auto. right. exists j. rewrite aget_app1 by lia.
      splits; auto. destruct (in_dec Nat.eq_dec L.[j] newq) as [H|_]; auto. elim (HnL _ H). apply aget_In. lia.
    + right. exists d. rewrite app_length in Hi. rewrite aget_app2 by lia. rewrite (aget_app1 L newq d) by lia.
      assert (Hin : In newq.[i - length L] newq) by (apply aget_In; lia).
      destruct (HE newq.[i - length L]) as [He _]; [rewrite in_app_iff; auto|].
      splits; auto; try lia; [now apply HU|]. destruct (in_dec Nat.eq_dec newq.[i - length L] newq); [|contradiction].
      destruct (in_dec Nat.eq_dec L.[d] newq); auto.
Qed.

(** moving the rest of the queue back to the roots *)
Lemma walk_inv_requeue vis roots D q rt : walk_inv vis roots (D ++ q) (length D) rt -> walk_inv vis (roots ++ q) D (length D) rt.
Proof.
  intros (I1 & I2 & I3 & I4 & I4' & I5 & I6 & I7 & I8).
  assert (HPA : Permutation ((D ++ q) ++ roots) (D ++ roots ++ q)).
  { rewrite <- app_assoc. apply Permutation_app_head, Permutation_app_comm. }
  assert (HIA : forall y, In y (D ++ roots ++ q) <-> In y ((D ++ q) ++ roots)).
  { intros y. split; apply Permutation_in; auto. now apply Permutation_sym. }
  unfold walk_inv. splits; auto.
  - eapply Permutation_NoDup; eauto.
  - intros y Hy. apply I3, HIA. auto.
  - intros y Hy Hv. apply HIA. auto.
  - intros y Hy. apply I4'. rewrite in_app_iff. auto.
  - intros y Hy. apply I5, HIA. auto.
  - intros i Hi u Hu. apply HIA. apply (I6 i); auto. now rewrite aget_app1 by lia.
  - intros y Hy Hs. apply HIA. auto.
  - intros i Hi. destruct (I8 i) as [H|(j & Hj & Hjd & H)]; [rewrite app_length; lia| |].
    + rewrite aget_app1 in H by lia. auto.
    + right. exists j. rewrite !aget_app1 in H by lia. auto.
Qed.

Lemma walk_inv_bound vis roots L d rt : walk_inv vis roots L d rt -> length L <= n.
Proof.
  intros (I1 & I2 & I3 & _). apply NoDup_bounded_length.
  - apply NoDup_app_iff in I2. apply I2.
  - intros x Hx. apply I3. rewrite in_app_iff. auto.
Qed.

Lemma walk_inv_end vis D rt : walk_inv vis [] D (length D) rt -> is_perm n D.
Proof.
  intros (I1 & I2 & I3 & I4 & I4' & I5 & I6 & I7 & I8). rewrite app_nil_r in *.
  assert (HA : forall m x, n - m <= x -> x < n -> In x D).
  { induction m as [|m IH]; intros x Hx Hn; [lia|].
    destruct (Nat.eq_dec (Lp.[S x] - Lp.[x]) 1) as [H1|H1].
    - apply I7; auto. now apply col_one_sink.
    - (* there is an edge *)
      destruct (HD x Hn) as (k0 & (Hk0 & E0) & HU).
      assert (Hex : exists k, Lp.[x] <= k < Lp.[S x] /\ k <> k0).
      { destruct (Nat.eq_dec Lp.[x] k0) as [Ek|Ek].
        - exists (Lp.[S x] - 1). lia.
        - exists Lp.[x]. lia. }
      destruct Hex as (k & Hk & Hne).
      assert (He : E x Li.[k]).
      { unfold edge. split; [auto|split; [exists k; auto|]]. intros Eq. apply Hne. apply HU; auto. }
      pose proof (HT _ _ He). pose proof (wf_edge_lt n Lp Li W _ _ He) as [_ Hw].
      pose proof (IH Li.[k] ltac:(lia) Hw) as Hin. apply In_aget in Hin. destruct Hin as (i & Hi & Ei).
      rewrite <- (app_nil_r D). rewrite app_nil_r. apply (I6 i); auto. now rewrite Ei. }
  assert (HL : length D = n).
  { apply Nat.le_antisymm; [now apply NoDup_bounded_length|].
    rewrite <- (seq_length n 0). apply NoDup_incl_length; [apply seq_NoDup|].
    intros x Hx. apply in_seq in Hx. apply (HA n); lia. }
  apply is_perm_intro; auto.
Qed.

Lemma walk_inv_init roots : NoDup roots -> (forall x, In x roots <-> x < n /\ forall w, ~ E x w) ->
  walk_inv (repeat false n) roots [] 0 (fun x => x).
Proof.
  intros HN HI. unfold walk_inv. simpl. splits; auto.
  - apply repeat_length.
  - intros x Hx. now apply HI.
  - intros x Hx. rewrite aget_repeat by auto. discriminate.
  - intros x Hx. right. now apply HI.
  - intros; lia.
  - intros x Hx Hs. now apply HI.
Qed.

(** [L] is reachable to its roots *)
Lemma walk_inv_reach vis roots L d rt : walk_inv vis roots L d rt -> forall i, i < length L -> reaches E L.[i] (rt L.[i]).
Proof.
  intros (_ & _ & _ & _ & _ & _ & _ & _ & I8).
  assert (G : forall m i, i < m -> i < length L -> reaches E L.[i] (rt L.[i])).
  { induction m as [|m IH]; intros i Hi Hl; [lia|]. destruct (I8 i Hl) as [H|(j & Hj & Hjd & H1 & H2 & H3)].
    - rewrite H. exists 0. constructor.
    - rewrite H3. destruct (IH j ltac:(lia) ltac:(lia)) as (k & Hk). exists (S k). eapply chain_cons; eauto. }
  intros i Hi. apply (G (S i)); auto.
Qed.

End Walk.
