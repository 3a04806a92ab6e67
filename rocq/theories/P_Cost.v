(** Properties of costComputation (C27, C60). *)
From Coq Require Import ZifyBool ZifyNat.
From Verif Require Import Base Lib Lib2 Lib3 Spec SpecSolve SpecGroup Check CheckS CheckG M_Cost.

(** what the code charges a node for *)
Definition node_cost (k : kernel) (Cp Ci Rp Ri : list nat) (v : nat) : nat :=
  let len (p : list nat) u := p.[S u] - p.[u] in
  let deps (p i : list nat) (q : list nat) := sum_r p.[v] p.[S v] (fun j => len q i.[j]) in
  match k with
  | SpTrSv_LL => len Rp v
  | SpTrSv_RL => len Cp v
  | SpICh0_LL => deps Rp Ri Cp
  | SpICh0_RL => deps Cp Ci Cp
  | SpICh0_UL | SpILU0_UL | General => deps Rp Ri Rp
  end.

Lemma upd_upd {A} (l : list A) i v w : upd (upd l i v) i w = upd l i w.
Proof. revert i. induction l as [|x l IH]; intros [|i]; simpl; auto. now rewrite IH. Qed.

Lemma upd_aget (l : list nat) i : upd l i l.[i] = l.
Proof. revert i. induction l as [|x l IH]; intros [|i]; simpl; auto. unfold aget in *. simpl. now rewrite IH. Qed.

Lemma list_sum_perm (l l' : list nat) : Permutation l l' -> list_sum l = list_sum l'.
Proof. induction 1; simpl; lia. Qed.

(** a sum over a rearrangement *)
Lemma sum_r_rearrange n (g f : nat -> nat) : (forall i, i < n -> g i < n) -> (forall i j, i < n -> j < n -> g i = g j -> i = j) ->
  sum_r 0 n (fun i => f (g i)) = sum_r 0 n f.
Proof.
  intros G1 G2. unfold sum_r. rewrite Nat.sub_0_r. rewrite <- (map_map g f). apply list_sum_perm. apply Permutation_map.
  apply NoDup_Permutation_bis.
  - assert (K : forall l, NoDup l -> (forall i, In i l -> i < n) -> NoDup (map g l)).
    { induction 1 as [|x l Hx Hl IH]; intros Hb; simpl; constructor.
      - rewrite in_map_iff. intros (y & E & Hy). apply Hx. replace x with y; auto. apply G2; auto; apply Hb; simpl; auto.
      - apply IH. intros i Hi. apply Hb. now right. }
    apply K; [apply seq_NoDup|]. intros i. rewrite in_seq. lia.
  - rewrite map_length. auto.
  - intros x. rewrite in_map_iff. intros (i & <- & Hi). apply in_seq in Hi. apply in_seq. specialize (G1 i). lia.
Qed.

Section Cost.
Variables (n : nat) (Cp Ci Rp Ri : list nat).
Hypothesis WC : wf_csc n Cp Ci.
Hypothesis WR : wf_csc n Rp Ri.

Lemma add_cost_wp cost t d (Q : list nat -> Prop) : t < length cost -> Q (upd cost t (cost.[t] + d)) -> wp (add_cost cost t d) Q.
Proof. intros Ht HQ. unfold add_cost. repeat wp1; auto. Qed.

Lemma length_of_wp p v (Q : nat -> Prop) : S v < length p -> Q (p.[S v] - p.[v]) -> wp (length_of p v) Q.
Proof. intros Ht HQ. unfold length_of. repeat (wp1; try lia). auto. Qed.

Lemma upd_add (cost : list nat) t a b : t < length cost -> upd (upd cost t (cost.[t] + a)) t ((upd cost t (cost.[t] + a)).[t] + b) = upd cost t (cost.[t] + (a + b)).
Proof. intros Ht. rewrite aget_upd_eq, upd_upd by auto. f_equal. lia. Qed.

Lemma upd_add0 (cost : list nat) t : upd cost t (cost.[t] + 0) = cost.
Proof. rewrite Nat.add_0_r. apply upd_aget. Qed.

Lemma add_row_wp Lp Li Dp Di v t cost (Q : list nat -> Prop) : wf_csc n Lp Li -> wf_csc n Dp Di -> v < n -> t < length cost ->
  Q (upd cost t (cost.[t] + sum_r Lp.[v] Lp.[S v] (fun j => Dp.[S Li.[j]] - Dp.[Li.[j]]))) -> wp (add_row Lp Li Dp v t cost) Q.
Proof.
  intros (L1 & L2 & L3 & L4 & L5) (D1 & D2 & D3 & D4 & D5) Hv Ht HQ. unfold add_row. repeat (wp1; try lia).
  pose proof (L3 v Hv). assert (Lp.[S v] <= Lp.[n]) by (apply (mono_le (aget Lp) n); auto; lia).
  apply (wp_for (fun j c => c = upd cost t (cost.[t] + sum_r Lp.[v] j (fun j => Dp.[S Li.[j]] - Dp.[Li.[j]])))); auto.
  - rewrite sum_r_nil by lia. now rewrite upd_add0.
  - intros j c Hj ->. wp1. wp1; [lia|]. wp1. pose proof (L5 j ltac:(lia)). apply length_of_wp; [lia|]. apply add_cost_wp; [now rewrite upd_length|].
    rewrite upd_add by auto. rewrite sum_r_S by lia. reflexivity.
  - intros c ->. exact HQ.
Qed.

(** with no empty row before it, the first position of a row is at least its index *)
Lemma break_dead Lp Li Dp v t cost : (forall u, u < v -> Lp.[u] < Lp.[S u]) -> v < n -> wf_csc n Lp Li -> add_row_break Lp Li Dp v t cost = add_row Lp Li Dp v t cost.
Proof.
  intros HN Hv (L1 & L2 & L3 & L4 & L5). unfold add_row_break, add_row.
  destruct (rd Lp v) as [a|] eqn:Ea; auto. assert (a = Lp.[v]).
  { rewrite rd_ok in Ea by lia. now injection Ea. }
  assert (Hge : forall u, u <= v -> u <= Lp.[u]).
  { induction u as [|u IH]; intros Hu; [lia|]. specialize (HN u ltac:(lia)). specialize (IH ltac:(lia)). lia. }
  specialize (Hge v (le_n v)). cbn [bind]. destruct (rd Lp (S v)) as [b|]; auto. cbn [bind]. unfold forb_, for_.
  assert (Hva : v <= a) by lia. clear - Hva. generalize (b - a). intros m. revert a Hva cost. induction m as [|m IH]; intros a Hva cost; auto.
  simpl. destruct (Nat.ltb_spec a v); [lia|]. destruct (rd Li a); auto. cbn [bind]. destruct (length_of Dp a0); auto. cbn [bind].
  destruct (add_cost cost t a1); auto. cbn [bind]. apply IH. lia.
Qed.

Lemma add_node_wp k grouped v t cost (Q : list nat -> Prop) : v < n -> t < length cost ->
  (k = SpILU0_UL -> grouped = true -> forall u, u < v -> Rp.[u] < Rp.[S u]) ->
  Q (upd cost t (cost.[t] + node_cost k Cp Ci Rp Ri v)) -> wp (add_node k grouped Cp Ci Rp Ri v t cost) Q.
Proof.
  intros Hv Ht HN HQ. assert (S v < length Cp /\ S v < length Rp) by (destruct WC, WR; lia).
  destruct k; unfold add_node; try (eapply add_row_wp; eauto; fail).
  - wp1. apply length_of_wp; [lia|]. apply add_cost_wp; auto.
  - wp1. apply length_of_wp; [lia|]. apply add_cost_wp; auto.
  - destruct grouped; [rewrite break_dead; auto|]; eapply add_row_wp; eauto.
Qed.

Lemma plain_wp k cost gp gs : cost <> [] ->
  exists c, costComputation n Cp Ci Rp Ri k gp gs false cost = Ok c /\ length c = n /\ forall v, v < n -> c.[v] = node_cost k Cp Ci Rp Ri v.
Proof.
  intros Hc. set (P := fun c : list nat => length c = n /\ forall v, v < n -> c.[v] = node_cost k Cp Ci Rp Ri v).
  assert (G : wp (costComputation n Cp Ci Rp Ri k gp gs false cost) P).
  { unfold costComputation. destruct cost as [|x l]; [congruence|].
    apply (wp_for (fun i c => length c = n /\ (forall v, v < i -> c.[v] = node_cost k Cp Ci Rp Ri v) /\ forall v, i <= v < n -> c.[v] = 0)).
    - lia.
    - rewrite repeat_length. splits; auto; [lia|]. intros v Hv. apply aget_repeat. lia.
    - intros i c Hi (I1 & I2 & I3). apply add_node_wp; auto; [lia|lia|discriminate|]. rewrite upd_length. splits; auto.
      + intros v Hv. destruct (Nat.eq_dec v i) as [->|]; [rewrite aget_upd_eq, I3 by lia; lia|rewrite aget_upd_ne by lia; apply I2; lia].
      + intros v Hv. rewrite aget_upd_ne by lia. apply I3. lia.
    - intros c (I1 & I2 & I3). split; auto. }
  destruct (costComputation n Cp Ci Rp Ri k gp gs false cost) as [c|]; [|contradiction]. exists c. auto.
Qed.

Lemma grouped_wp k cost ng gp gs : cost <> [] -> ng < length gp -> gp.[ng] <= length gs -> (forall g, g < ng -> gp.[g] <= gp.[S g]) ->
  (forall i, i < gp.[ng] -> gs.[i] < n) -> (k = SpILU0_UL -> forall v, v < n -> Rp.[v] < Rp.[S v]) ->
  exists c, costComputation ng Cp Ci Rp Ri k gp gs true cost = Ok c /\ length c = ng /\
    forall g, g < ng -> c.[g] = sum_r gp.[g] gp.[S g] (fun i => node_cost k Cp Ci Rp Ri gs.[i]).
Proof.
  intros Hc G1 G2 G3 G4 HN. set (S_ := fun g i => sum_r gp.[g] i (fun i => node_cost k Cp Ci Rp Ri gs.[i])).
  set (P := fun c : list nat => length c = ng /\ forall g, g < ng -> c.[g] = S_ g gp.[S g]).
  assert (G : wp (costComputation ng Cp Ci Rp Ri k gp gs true cost) P).
  { unfold costComputation. destruct cost as [|x l]; [congruence|].
    apply (wp_for (fun i c => length c = ng /\ (forall v, v < i -> c.[v] = S_ v gp.[S v]) /\ forall v, i <= v < ng -> c.[v] = 0)).
    - lia.
    - rewrite repeat_length. splits; auto; [lia|]. intros v Hv. apply aget_repeat. lia.
    - intros g c Hg (I1 & I2 & I3). wp1. wp1; [lia|]. wp1. wp1; [lia|]. pose proof (G3 g ltac:(lia)).
      assert (gp.[S g] <= gp.[ng]) by (apply (mono_le (aget gp) ng); auto; lia).
      apply (wp_for (fun i c' => c' = upd c g (c.[g] + S_ g i))); auto.
      + unfold S_. rewrite sum_r_nil by lia. now rewrite upd_add0.
      + intros i c' Hi ->. wp1. wp1; [lia|]. apply add_node_wp; [apply G4; lia|rewrite upd_length; lia| |].
        * intros Hk _ u Hu. apply HN; auto. pose proof (G4 i ltac:(lia)). lia.
        * rewrite upd_add by lia. unfold S_. now rewrite sum_r_S by lia.
      + intros c' ->. rewrite upd_length. splits; auto.
        * intros v Hv. destruct (Nat.eq_dec v g) as [->|]; [rewrite aget_upd_eq, I3 by lia; lia|rewrite aget_upd_ne by lia; apply I2; lia].
        * intros v Hv. rewrite aget_upd_ne by lia. apply I3. lia.
    - intros c (I1 & I2 & I3). split; auto. }
  destruct (costComputation ng Cp Ci Rp Ri k gp gs true cost) as [c|]; [|contradiction]. exists c. auto.
Qed.
End Cost.

(** * C27 *)

Theorem C27_node_costs :
  forall n Cp Ci Rp Ri k gp gs cost, wf_csc n Cp Ci -> wf_csc n Rp Ri -> cost <> [] ->
  exists c, costComputation n Cp Ci Rp Ri k gp gs false cost = Ok c /\ length c = n /\
    forall v, v < n -> c.[v] = node_cost k Cp Ci Rp Ri v.
Proof. intros. now apply plain_wp. Qed.
Print Assumptions C27_node_costs.

Theorem C27_group_costs_are_sums :
  forall n Cp Ci Rp Ri k ng gp gs cost cost' c, wf_csc n Cp Ci -> wf_csc n Rp Ri -> grouping n ng gp gs -> cost' <> [] ->
  (k = SpILU0_UL -> forall v, v < n -> Rp.[v] < Rp.[S v]) ->
  costComputation n Cp Ci Rp Ri k gp gs false cost = Ok c -> cost <> [] ->
  exists c', costComputation ng Cp Ci Rp Ri k gp gs true cost' = Ok c' /\ length c' = ng /\
    (forall g, g < ng -> c'.[g] = sum_r gp.[g] gp.[S g] (fun i => c.[gs.[i]])) /\
    sum_r 0 ng (aget c') = sum_r 0 n (aget c).
Proof.
  intros n Cp Ci Rp Ri k ng gp gs cost cost' c WC WR (GL & GS & GP & GN) Hc HN E Hc'.
  destruct (plain_wp n Cp Ci Rp Ri WC WR k cost gp gs Hc') as (c1 & E1 & L1 & V1). rewrite E in E1. injection E1 as <-.
  destruct GP as (P2 & P3 & P4 & P5 & P6).
  assert (GB : forall i, i < n -> gs.[i] < n) by (intros i Hi; apply P5; lia).
  destruct (grouped_wp n Cp Ci Rp Ri WC WR k cost' ng gp gs Hc) as (c' & E' & L' & V'); auto; try lia.
  { intros i Hi. apply GB. lia. }
  exists c'. assert (V2 : forall g, g < ng -> c'.[g] = sum_r gp.[g] gp.[S g] (fun i => c.[gs.[i]])).
  { intros g Hg. rewrite V' by auto. apply sum_r_ext. intros i Hi. symmetry. apply V1. apply GB.
    assert (gp.[S g] <= gp.[ng]) by (apply (mono_le (aget gp) ng); auto; lia). lia. }
  splits; auto.
  assert (T : forall m, m <= ng -> sum_r 0 m (aget c') = sum_r 0 gp.[m] (fun i => c.[gs.[i]])).
  { induction m as [|m IH]; intros Hm; [rewrite P2; rewrite !sum_r_nil by lia; auto|].
    rewrite sum_r_S by lia. rewrite IH, V2 by lia. specialize (GN m ltac:(lia)). rewrite <- sum_r_split by lia. reflexivity. }
  rewrite T, P4 by lia. apply (sum_r_rearrange n (aget gs) (aget c)); auto.
Qed.
Print Assumptions C27_group_costs_are_sums.

(** 0 -> 1, 0 -> 2, 1 -> 2 with the groups {0,1}, {2} *)
Definition exCp := [0;3;5;6].
Definition exCi := [0;1;2; 1;2; 2].
Definition exRp := [0;1;3;6].
Definition exRi := [0; 0;1; 0;1;2].

Example C27_case : wf_csc 3 exCp exCi /\ wf_csc 3 exRp exRi /\ grouping 3 2 [0;2;3] [0;1;2] /\
  (forall v, v < 3 -> exRp.[v] < exRp.[S v]) /\
  costComputation 3 exCp exCi exRp exRi SpICh0_LL [] [] false [7] = Ok [3;5;6] /\
  costComputation 2 exCp exCi exRp exRi SpICh0_LL [0;2;3] [0;1;2] true [7] = Ok [8;6] /\
  costComputation 2 exCp exCi exRp exRi SpILU0_UL [0;2;3] [0;1;2] true [7] = Ok [4;6].
Proof.
  splits; try (vm_compute; reflexivity); [now apply wf_cscb_ok|now apply wf_cscb_ok|now apply groupingb_ok|].
  intros v Hv. do 3 (destruct v as [|v]; [vm_compute; lia|]). lia.
Qed.

(** SpILU0_UL: rows 0 and 1 are empty, so row 2 starts at position 0 and the loop is left *)
Theorem C27_ilu0_refuted :
  ~ (forall n Cp Ci Rp Ri ng gp gs c c', wf_csc n Cp Ci -> wf_csc n Rp Ri -> grouping n ng gp gs ->
     costComputation n Cp Ci Rp Ri SpILU0_UL gp gs false [0] = Ok c ->
     costComputation ng Cp Ci Rp Ri SpILU0_UL gp gs true [0] = Ok c' ->
     forall g, g < ng -> c'.[g] = sum_r gp.[g] gp.[S g] (fun i => c.[gs.[i]])).
Proof.
  intros H. specialize (H 3 [0;0;0;1] [2] [0;0;0;1] [2] 2 [0;2;3] [0;1;2] [0;0;1] [0;0]
    ltac:(now apply wf_cscb_ok) ltac:(now apply wf_cscb_ok) ltac:(now apply groupingb_ok)
    ltac:(vm_compute; reflexivity) ltac:(vm_compute; reflexivity) 1 ltac:(lia)). vm_compute in H. discriminate.
Qed.
Print Assumptions C27_ilu0_refuted.

(** every node of a matrix without empty rows and columns has a positive cost (needed by
    HDAGG, see C15) *)
Theorem C27_costs_positive :
  forall n Cp Ci Rp Ri k v, wf_csc n Cp Ci -> wf_csc n Rp Ri -> (forall v, v < n -> Cp.[v] < Cp.[S v]) -> (forall v, v < n -> Rp.[v] < Rp.[S v]) ->
  v < n -> 0 < node_cost k Cp Ci Rp Ri v.
Proof.
  intros n Cp Ci Rp Ri k v WC WR HC HR Hv.
  assert (K : forall Lp Li (Dp : list nat), wf_csc n Lp Li -> (forall v, v < n -> Lp.[v] < Lp.[S v]) -> (forall v, v < n -> Dp.[v] < Dp.[S v]) ->
     0 < sum_r Lp.[v] Lp.[S v] (fun j => Dp.[S Li.[j]] - Dp.[Li.[j]])).
  { intros Lp Li Dp (W1 & W2 & W3 & W4 & W5) HL HD. pose proof (HL v Hv).
    assert (Lp.[S v] <= Lp.[n]) by (apply (mono_le (aget Lp) n); auto; lia).
    pose proof (sum_r_ge_one Lp.[v] Lp.[S v] (fun j => Dp.[S Li.[j]] - Dp.[Li.[j]]) Lp.[v] ltac:(lia)) as G. cbv beta in G.
    pose proof (HD Li.[Lp.[v]] (W5 Lp.[v] ltac:(lia))). lia. }
  destruct k; unfold node_cost; auto; [specialize (HR v Hv)|specialize (HC v Hv)]; lia.
Qed.
Print Assumptions C27_costs_positive.

(** * C60 *)

(** an empty cost vector is not resized: the first addition is out of bounds *)
Theorem C60_empty_cost_out_of_bounds :
  forall n Cp Ci Rp Ri k gp gs, wf_csc n Cp Ci -> wf_csc n Rp Ri -> (forall v, v < n -> Cp.[v] < Cp.[S v]) -> (forall v, v < n -> Rp.[v] < Rp.[S v]) ->
  0 < n -> costComputation n Cp Ci Rp Ri k gp gs false [] = Err OOB.
Proof.
  intros n Cp Ci Rp Ri k gp gs WC WR HC HR Hn. unfold costComputation. rewrite for_step by auto.
  assert (A : forall d, add_cost [] 0 d = Err OOB) by (intros; reflexivity).
  assert (L : forall p, 1 < length p -> exists d, length_of p 0 = Ok d).
  { intros p Hp. unfold length_of. rewrite !rd_ok by lia. eexists. reflexivity. }
  assert (K : forall Lp Li Dp Di, wf_csc n Lp Li -> wf_csc n Dp Di -> (forall v, v < n -> Lp.[v] < Lp.[S v]) -> add_row Lp Li Dp 0 0 [] = Err OOB).
  { intros Lp Li Dp Di (W1 & W2 & W3 & W4 & W5) (D1 & _) HL. unfold add_row. rewrite !rd_ok by lia. cbn [bind]. pose proof (HL 0 Hn).
    assert (Lp.[1] <= Lp.[n]) by (apply (mono_le (aget Lp) n); auto; lia).
    rewrite for_step by auto. rewrite rd_ok by lia. cbn [bind]. pose proof (W5 Lp.[0] ltac:(lia)).
    unfold length_of. rewrite !rd_ok by lia. cbn [bind]. rewrite A. reflexivity. }
  assert (1 < length Cp /\ 1 < length Rp) as (LC & LR) by (destruct WC, WR; lia).
  unfold add_node. destruct k; try (erewrite K; eauto; fail).
  - destruct (L Rp LR) as (d & ->). cbn [bind]. now rewrite A.
  - destruct (L Cp LC) as (d & ->). cbn [bind]. now rewrite A.
Qed.
Print Assumptions C60_empty_cost_out_of_bounds.
