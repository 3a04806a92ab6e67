(** C12-C17, C49: the HDAGG scheduler and GLC_V2. *)
From Verif Require Import Base Lib Lib2 Spec Check M_LevelSet L_LevelSet L_LevelSet2 M_CC L_CC M_PostOrder M_Sched L_Sched L_Sched2
  M_HDAGG L_HDAGG L_HDAGG2 L_HDAGG3 P_Sched.
From Coq Require Import ZifyBool ZifyNat.

(** the comparison "cost < total / cores", however it rounds: a positive share exceeds
    a zero cost, and dividing by one is exact *)
Definition rounding_ok (below : nat -> nat -> nat -> bool) : Prop :=
  (forall num den, 0 < num -> 0 < den -> below 0 num den = true) /\
  (forall a num, below a num 1 = (a <? num)).

Definition positive_costs (n : nat) (node_cost : list nat) : Prop := forall x, x < n -> 0 < node_cost.[x].

(** the dependence graph: acyclic and not one single chain through all nodes *)
Definition dag_input n Lp Li : Prop :=
  wf_csc n Lp Li /\ one_diag n Lp Li /\ acyclic (edge n Lp Li) /\ ~ (0 < n /\ visits_all n (edge n Lp Li)).

Lemma rounding_exact : rounding_ok below_exact.
Proof. unfold rounding_ok, below_exact. split; intros; [apply Nat.ltb_lt; lia|now rewrite Nat.mul_1_r]. Qed.

Lemma levels_rank n Lp Li k ptr lset n2l : wf_csc n Lp Li -> levels_exact n Lp Li k ptr lset n2l ->
  (forall u v, edge n Lp Li u v -> n2l.[u] < n2l.[v]) /\
  (forall v, v < n -> 0 < n2l.[v] -> exists u, edge n Lp Li u v /\ S n2l.[u] = n2l.[v]).
Proof.
  intros W HX.
  assert (HD : forall v, v < n -> depth_is (edge n Lp Li) v n2l.[v]).
  { intros v Hv. destruct (levels_cover _ _ _ _ _ _ _ v HX Hv) as (l & Hl & Hin).
    destruct (levels_in_level _ _ _ _ _ _ _ _ _ HX Hl Hin) as (_ & -> & Hd). exact Hd. }
  assert (HR : forall u v, edge n Lp Li u v -> n2l.[u] < n2l.[v]).
  { intros u v He. pose proof (wf_edge_lt _ _ _ W u v He) as [Hu Hv].
    destruct (HD u Hu) as [[w Hw] _]. destruct (HD v Hv) as [_ Hm]. apply (Hm w (S n2l.[u])). econstructor; eauto. }
  split; auto. intros v Hv H0. destruct (HD v Hv) as [[w Hw] _].
  inversion Hw as [|a b c d Hc He]; subst; [lia|]. exists b. split; auto.
  pose proof (wf_edge_lt _ _ _ W b v He) as [Hb _]. destruct (HD b Hb) as [_ Hm]. specialize (Hm _ _ Hc).
  specialize (HR b v He). lia.
Qed.

(** the level sets HDAGG starts from *)
Lemma HDAGG_levels n Lp Li : dag_input n Lp Li ->
  exists k ptr lset n2l,
    build_levelSet_CSC n Lp Li (repeat 0 (n + 1)) (repeat 0 n) (repeat 0 n) = Ok (Z.of_nat k, (ptr, lset, n2l)) /\
    levels_exact n Lp Li k ptr lset n2l /\ k < length ptr /\ n <= length lset /\ n <= length n2l.
Proof.
  intros (W & D & A & V).
  destruct (build_levelSet_total n Lp Li (repeat 0 (n + 1)) (repeat 0 n) (repeat 0 n) W D)
    as (k & ptr & lset & n2l & Eq & H); rewrite ?repeat_length; try lia.
  { rewrite aget_repeat; auto. lia. }
  pose proof (build_levelSet_lengths n Lp Li (repeat 0 (n + 1)) (repeat 0 n) (repeat 0 n) _ Eq) as (L1 & L2 & L3).
  rewrite repeat_length in *.
  destruct H as [(_ & Hn & [(u & c & Hc)|HV])|(Hk & HX & _)].
  - exfalso. exact (A u c Hc).
  - exfalso. auto.
  - exists (Z.to_nat k), ptr, lset, n2l. rewrite Z2Nat.id by lia. splits; auto; try lia.
    destruct HX as (_ & ? & _). lia.
Qed.

(** cut points: from 0 strictly increasing to [k] *)
Definition strict_cuts (k : nat) (WM : list nat) : Prop :=
  0 < length WM /\ WM.[0] = 0 /\ (forall i, S i < length WM -> WM.[i] < WM.[S i]) /\ WM.[length WM - 1] = k.

Lemma strict_cuts_cuts k WM : strict_cuts k WM -> cuts k WM.
Proof. intros (H1 & H2 & H3 & H4). unfold cuts. splits; auto. intros i Hi. specialize (H3 i Hi). lia. Qed.

Section Run.
Variables (below : nat -> nat -> nat -> bool) (accept : nat -> nat -> bool).
Variables (n k : nat) (Lp Li ptr lset n2l node_cost : list nat) (cores : nat).
Hypothesis W : wf_csc n Lp Li.
Hypothesis HX : levels_exact n Lp Li k ptr lset n2l.
Hypothesis H1 : k < length ptr.
Hypothesis H2 : n <= length lset.
Hypothesis H3 : n <= length n2l.
Hypothesis H4 : n <= length node_cost.
Hypothesis H5 : 2 <= cores \/ (cores = 1 /\ positive_costs n node_cost /\ rounding_ok below).

Lemma run_cores : 2 <= cores \/ (cores = 1 /\ pos_mode below n node_cost).
Proof. destruct H5 as [|(E & P & R)]; [left; auto|right]. split; [auto|split; [exact P|exact R]]. Qed.

Lemma run_in_level l v : l < k -> in_level ptr lset l v -> n2l.[v] = l.
Proof. intros Hl Hi. now destruct (levels_in_level _ _ _ _ _ _ _ _ _ HX Hl Hi) as (_ & ? & _). Qed.

Lemma run_search :
  exists WM sizes, search_all below accept n Lp Li ptr lset n2l node_cost cores k = Ok (WM, sizes) /\
    strict_cuts k WM /\
    (positive_costs n node_cost -> rounding_ok below -> chunk_tables n Lp Li ptr lset WM cores sizes).
Proof.
  destruct (levels_rank n Lp Li k ptr lset n2l W HX) as [HR HP]. pose proof HX as (LP & _).
  assert (G : wp (search_all below accept n Lp Li ptr lset n2l node_cost cores k) (fun '(WM, sizes) =>
      WInv below n k Lp Li ptr lset node_cost cores WM sizes k)).
  { apply (search_all_wp below accept n k Lp Li ptr lset n2l node_cost W LP H1 H2 H3 run_in_level HR HP H4 cores run_cores). auto. }
  apply wp_ok in G. destruct G as ((WM & sizes) & Eq & HI). exists WM, sizes.
  pose proof (WInv_len _ _ _ _ _ _ _ _ _ _ _ _ HI) as HL.
  destruct HI as (A1 & A2 & A3 & A4 & A5 & A6 & A7). splits; auto.
  - unfold strict_cuts. auto.
  - intros P R. split; [lia|]. intros wm Hwm. destruct (A7 (conj P R) wm Hwm) as (R1 & R2 & R3).
    splits; auto; try lia. intros i Hi. apply R2. lia.
Qed.

End Run.

(** C12.  For every outcome of the divergence test the search ends without an access
    out of bounds, and the cut points it returns start at 0, strictly increase and end
    at the number of levels.  With two or more cores this needs nothing about costs
    or rounding. *)
Theorem C12_window_search :
  forall below accept n Lp Li node_cost cores,
  dag_input n Lp Li -> n <= length node_cost ->
  2 <= cores \/ (cores = 1 /\ positive_costs n node_cost /\ rounding_ok below) ->
  exists k ptr lset n2l WM sizes,
    build_levelSet_CSC n Lp Li (repeat 0 (n + 1)) (repeat 0 n) (repeat 0 n) = Ok (Z.of_nat k, (ptr, lset, n2l)) /\
    search_all below accept n Lp Li ptr lset n2l node_cost cores k = Ok (WM, sizes) /\
    strict_cuts k WM /\ (forall v, v < n -> exists d, d < k /\ depth_is (edge n Lp Li) v d).
Proof.
  intros below accept n Lp Li nc cores DI HL HC. pose proof DI as (W & _).
  destruct (HDAGG_levels n Lp Li DI) as (k & ptr & lset & n2l & Eq & HX & L1 & L2 & L3).
  destruct (run_search below accept n k Lp Li ptr lset n2l nc cores W HX L1 L2 L3 HL HC) as (WM & sizes & Es & SC & _).
  exists k, ptr, lset, n2l, WM, sizes. splits; auto.
  intros v Hv. destruct (levels_cover _ _ _ _ _ _ _ v HX Hv) as (l & Hl & Hin). exists l. split; auto.
  now destruct (levels_in_level _ _ _ _ _ _ _ _ _ HX Hl Hin) as (_ & _ & ?).
Qed.
Print Assumptions C12_window_search.

(** C13.  Assigning components to cores: the table runs from 0 to the number of
    components without decreasing, so every component belongs to exactly one core. *)
Theorem C13_chunks_cover :
  forall below cores part_cnt total pcost chunk,
  rounding_ok below -> 1 <= cores -> part_cnt <= length pcost ->
  (forall q, q < part_cnt -> 0 < pcost.[q]) -> sum_r 0 part_cnt (aget pcost) = total ->
  length chunk = S cores -> chunk.[0] = 0 ->
  exists chunk' cost, balance below cores part_cnt total pcost chunk = Ok (chunk', cost) /\
    length cost = cores /\ chunk'.[0] = 0 /\ chunk'.[cores] = part_cnt /\
    (forall i, i < cores -> chunk'.[i] <= chunk'.[S i]) /\
    (forall q, q < part_cnt -> exists! c, c < cores /\ chunk'.[c] <= q < chunk'.[S c]).
Proof.
  intros below cores pcnt total pcost chunk (R1 & R2) HC HP Hpos Hsum HL H0.
  assert (G := balance_wp below R1 R2 cores pcnt total pcost HC HP Hpos Hsum chunk
    (fun '(chunk', cost) => length cost = cores /\ chunk_ok cores pcnt chunk') HL H0 (fun _ _ a b => conj a b)).
  apply wp_ok in G. destruct G as ((chunk' & cost) & Eq & L1 & K1 & K2 & K3 & K4).
  exists chunk', cost. splits; auto. intros q Hq.
  destruct (bucket_exists (aget chunk') cores q) as (c & Hc & Hb); auto; try lia.
  exists c. split; auto. intros c' (Hc' & Hb'). exact (bucket_unique (aget chunk') cores c c' q K3 Hc Hc' Hb Hb').
Qed.
Print Assumptions C13_chunks_cover.

(** C14.  HDAGG returns a valid schedule with one coarse level per window. *)
Theorem C14_HDAGG_valid :
  forall below accept junk n Lp Li node_cost cores postOrder bin_pack,
  dag_input n Lp Li -> n <= length node_cost ->
  2 <= cores \/ (cores = 1 /\ positive_costs n node_cost /\ rounding_ok below) ->
  (postOrder = true -> diag_first n Lp Li) ->
  (bin_pack = true -> positive_costs n node_cost /\ rounding_ok below) ->
  (bin_pack = true -> postOrder = false -> lower_tri n Lp Li) ->
  exists WM no clp cpp cnp,
    HDAGG below accept junk n Lp Li node_cost cores postOrder bin_pack = Ok (WM, (no, clp, cpp, cnp)) /\
    no = length WM - 1 /\ valid_schedule n (edge n Lp Li) no clp cpp cnp.
Proof.
  intros below accept junk n Lp Li nc cores po bp DI HL HC HPO HB HLT. pose proof DI as (W & _).
  destruct (HDAGG_levels n Lp Li DI) as (k & ptr & lset & n2l & Eq & HX & L1 & L2 & L3).
  destruct (run_search below accept n k Lp Li ptr lset n2l nc cores W HX L1 L2 L3 HL HC) as (WM & sizes & Es & SC & CT).
  assert (LI : levels_input n Lp Li k ptr lset n2l).
  { unfold levels_input. splits; auto; [apply HX|now apply (levels_ordered n Lp Li k ptr lset n2l)|].
    intros l v Hl Hi. now destruct (levels_in_level _ _ _ _ _ _ _ _ _ HX Hl Hi) as (_ & ? & _). }
  pose proof (strict_cuts_cuts _ _ SC) as CU.
  assert (G : exists no clp cpp cnp,
    computeSchedule n Lp Li ptr lset n2l junk cores WM sizes bp po = Ok (no, clp, cpp, cnp) /\
    no = length WM - 1 /\ valid_schedule n (edge n Lp Li) no clp cpp cnp).
  { destruct bp.
    - destruct (HB eq_refl) as [P R]. destruct po.
      + eapply C11_schedule_packed_post_order_valid; eauto.
      + eapply C10_schedule_packed_ids_valid; eauto.
    - eapply C09_schedule_components_valid; eauto. }
  destruct G as (no & clp & cpp & cnp & Ec & En & V). exists WM, no, clp, cpp, cnp. splits; auto.
  unfold HDAGG. rewrite Eq. simpl bind. destruct (Z.ltb_spec (Z.of_nat k) 0); [lia|].
  rewrite Nat2Z.id, Es. simpl bind. rewrite Ec. reflexivity.
Qed.
Print Assumptions C14_HDAGG_valid.

(** any numbering: a schedule right up to the order inside the parts *)
Theorem C14_HDAGG_parts :
  forall below accept junk n Lp Li node_cost cores postOrder bin_pack,
  dag_input n Lp Li -> n <= length node_cost ->
  2 <= cores \/ (cores = 1 /\ positive_costs n node_cost /\ rounding_ok below) ->
  (postOrder = true -> diag_first n Lp Li) ->
  (bin_pack = true -> positive_costs n node_cost /\ rounding_ok below) ->
  exists WM no clp cpp cnp,
    HDAGG below accept junk n Lp Li node_cost cores postOrder bin_pack = Ok (WM, (no, clp, cpp, cnp)) /\
    no = length WM - 1 /\ part_schedule n (edge n Lp Li) no clp cpp cnp.
Proof.
  intros below accept junk n Lp Li nc cores po bp DI HL HC HPO HB. pose proof DI as (W & _).
  assert (VP : forall no clp cpp cnp, valid_schedule n (edge n Lp Li) no clp cpp cnp -> part_schedule n (edge n Lp Li) no clp cpp cnp).
  { intros no clp cpp cnp (V1 & V2 & V3). unfold part_schedule. splits; auto.
    intros u v lu pu ku lv pv kv He Hu Hv A B. destruct (V3 _ _ _ _ _ _ _ _ He Hu Hv A B) as [|(? & ? & ?)]; auto. }
  destruct (Bool.bool_dec (bp && negb po) false) as [Hf|Ht].
  - destruct (C14_HDAGG_valid below accept junk n Lp Li nc cores po bp) as (WM & no & clp & cpp & cnp & E & En & V); auto.
    { intros -> ->. discriminate. }
    exists WM, no, clp, cpp, cnp. auto.
  - assert (bp = true /\ po = false) as [-> ->] by (destruct bp, po; simpl in Ht; auto; congruence).
    destruct (HDAGG_levels n Lp Li DI) as (k & ptr & lset & n2l & Eq & HX & L1 & L2 & L3).
    destruct (run_search below accept n k Lp Li ptr lset n2l nc cores W HX L1 L2 L3 HL HC) as (WM & sizes & Es & SC & CT).
    assert (LI : levels_input n Lp Li k ptr lset n2l).
    { unfold levels_input. splits; auto; [apply HX|now apply (levels_ordered n Lp Li k ptr lset n2l)|].
      intros l v Hl Hi. now destruct (levels_in_level _ _ _ _ _ _ _ _ _ HX Hl Hi) as (_ & ? & _). }
    pose proof (strict_cuts_cuts _ _ SC) as CU. destruct (HB eq_refl) as [P R].
    destruct (C10_schedule_packed_ids_parts n Lp Li k ptr lset n2l junk cores WM sizes W LI CU (CT P R))
      as (no & clp & cpp & cnp & Ec & En & V).
    exists WM, no, clp, cpp, cnp. splits; auto.
    unfold HDAGG. rewrite Eq. simpl bind. destruct (Z.ltb_spec (Z.of_nat k) 0); [lia|].
    rewrite Nat2Z.id, Es. simpl bind. rewrite Ec. reflexivity.
Qed.
Print Assumptions C14_HDAGG_parts.

(** lower triangular graphs with the diagonal stored first in each column, the format
    every caller produces: only "not one single chain" remains to be assumed *)
Corollary C14_HDAGG_valid_lower :
  forall below accept junk n Lp Li node_cost cores postOrder bin_pack,
  wf_csc n Lp Li -> diag_first n Lp Li -> lower_tri n Lp Li -> ~ (0 < n /\ visits_all n (edge n Lp Li)) ->
  n <= length node_cost -> positive_costs n node_cost -> rounding_ok below -> 1 <= cores ->
  exists WM no clp cpp cnp,
    HDAGG below accept junk n Lp Li node_cost cores postOrder bin_pack = Ok (WM, (no, clp, cpp, cnp)) /\
    no = length WM - 1 /\ valid_schedule n (edge n Lp Li) no clp cpp cnp.
Proof.
  intros below accept junk n Lp Li nc cores po bp W DF LT V HL P R HC.
  apply C14_HDAGG_valid; auto.
  - unfold dag_input. splits; auto; [now apply one_diag_of_first|].
    intros u c Hc. assert (G : forall a b m, chain (edge n Lp Li) a b m -> a + m <= b).
    { intros a b m Hm. induction Hm as [|a b d m Hm IH He]; [lia|]. specialize (LT b d He). lia. }
    apply G in Hc. lia.
  - destruct (Nat.eq_dec cores 1) as [->|]; [right|left]; auto. lia.
Qed.
Print Assumptions C14_HDAGG_valid_lower.

(** C16.  GLC_V2, any numbering. *)
Theorem C16_GLC_V2_valid :
  forall below accept n Lp Li node_cost cores bin_pack,
  dag_input n Lp Li -> n <= length node_cost ->
  2 <= cores \/ (cores = 1 /\ positive_costs n node_cost /\ rounding_ok below) ->
  (bin_pack = true -> positive_costs n node_cost /\ rounding_ok below) ->
  exists WM no clp cpp cnp,
    GLC_V2 below accept n Lp Li node_cost cores bin_pack = Ok (WM, (no, clp, cpp, cnp)) /\
    no = length WM - 1 /\ valid_schedule n (edge n Lp Li) no clp cpp cnp.
Proof.
  intros below accept n Lp Li nc cores bp DI HL HC HB. pose proof DI as (W & _).
  destruct (HDAGG_levels n Lp Li DI) as (k & ptr & lset & n2l & Eq & HX & L1 & L2 & L3).
  destruct (levels_rank n Lp Li k ptr lset n2l W HX) as [HR HP]. pose proof HX as (LP & _).
  pose proof (run_in_level n k Lp Li ptr lset n2l HX) as HN.
  assert (G : wp (glc_all below accept n Lp Li ptr lset n2l nc cores k bp) (fun '(WM, clp, cpp, cnp) =>
      valid_schedule n (edge n Lp Li) (length WM - 1) clp cpp cnp)).
  { apply (glc_all_wp below accept n k Lp Li ptr lset n2l nc W LP L1 L2 L3 HN HR HP HL cores (run_cores below n nc cores HC)).
    - intros Ebp. destruct (HB Ebp) as [P R]. split; [exact P|exact R].
    - intros WM sizes clp cpp cnp (A1 & A2 & A3 & A4 & _) HCI.
      assert (A3' : forall i, S i < length WM -> WM.[i] <= WM.[S i]) by (intros i Hi; specialize (A3 i Hi); lia).
      eapply CInv_valid; [exact HCI| |].
      + exact (win_all n k Lp Li ptr lset n2l LP L1 L2 L3 HN HR WM A1 A2 A3' A4).
      + exact (win_forward n k Lp Li ptr lset n2l W LP L1 L2 L3 HN HR WM A1 A2 A3' A4). }
  apply wp_ok in G. destruct G as ((((WM & clp) & cpp) & cnp) & Eg & V).
  exists WM, (length WM - 1), clp, cpp, cnp. splits; auto.
  unfold GLC_V2. rewrite Eq. simpl bind. destruct (Z.ltb_spec (Z.of_nat k) 0); [lia|].
  rewrite Nat2Z.id, Eg. reflexivity.
Qed.
Print Assumptions C16_GLC_V2_valid.

(** C17.  A chain through all nodes (and any cyclic graph): no schedule. *)
Theorem C17_chain_throws :
  forall below accept junk n Lp Li node_cost cores postOrder bin_pack,
  wf_csc n Lp Li -> one_diag n Lp Li -> 0 < n ->
  visits_all n (edge n Lp Li) \/ has_cycle (edge n Lp Li) ->
  HDAGG below accept junk n Lp Li node_cost cores postOrder bin_pack = Err Throw /\
  GLC_V2 below accept n Lp Li node_cost cores bin_pack = Err Throw.
Proof.
  intros below accept junk n Lp Li nc cores po bp W D Hn HV.
  destruct (build_levelSet_total n Lp Li (repeat 0 (n + 1)) (repeat 0 n) (repeat 0 n) W D)
    as (k & ptr & lset & n2l & Eq & H); rewrite ?repeat_length; try lia.
  { rewrite aget_repeat; auto. lia. }
  destruct H as [(-> & _)|(_ & _ & H)]; [|exfalso; apply H; tauto].
  unfold HDAGG, GLC_V2. rewrite Eq. split; reflexivity.
Qed.
Print Assumptions C17_chain_throws.

(** C15.  Zero costs: a schedule from which nodes are missing. *)
Definition ex6Lp := [0;2;4;6;8;9;10].
Definition ex6Li := [0;2;1;3;2;4;3;4;4;5].

Theorem C15_zero_costs_refuted :
  ~ (forall below accept junk n Lp Li node_cost cores WM no clp cpp cnp,
      wf_csc n Lp Li -> diag_first n Lp Li -> lower_tri n Lp Li -> n <= length node_cost -> 2 <= cores ->
      rounding_ok below ->
      HDAGG below accept junk n Lp Li node_cost cores false true = Ok (WM, (no, clp, cpp, cnp)) ->
      forall v, v < n -> exists l p i, l < no /\ sched_at clp cpp cnp l p i v).
Proof.
  intros H.
  destruct (H below_exact (fun _ it => it <=? 2) 0 6 ex6Lp ex6Li (repeat 0 6) 2
              [0;2;3] 2 [0;2;4] [0;0;0;1;1] [0;2;1;3;5;4]) with (v := 4) as (l & p & i & Hl & (A1 & A2 & A3)).
  - now apply wf_cscb_ok.
  - now apply diag_firstb_ok.
  - now apply lower_trib_ok.
  - simpl; lia.
  - lia.
  - apply rounding_exact.
  - vm_compute. reflexivity.
  - lia.
  - assert (i = 0).
    { assert (p < 4) by (destruct l as [|[|l]]; unfold aget in A1; simpl in A1; lia).
      destruct p as [|[|[|[|p]]]]; unfold aget in A2; simpl in A2; lia. }
    subst i. discriminate A3.
Qed.
Print Assumptions C15_zero_costs_refuted.

(** ** A concrete run: two trees, isolated node 5; windows {0,1} and {2} *)
Example C14_case :
  wf_csc 6 ex6Lp ex6Li /\ diag_first 6 ex6Lp ex6Li /\ lower_tri 6 ex6Lp ex6Li /\
  ~ (0 < 6 /\ visits_all 6 (edge 6 ex6Lp ex6Li)) /\ positive_costs 6 (repeat 1 6) /\
  HDAGG below_exact (fun _ it => it <=? 2) 0 6 ex6Lp ex6Li (repeat 1 6) 2 false true
    = Ok ([0;2;3], (2, [0;2;4], [0;4;5;6;6], [0;1;2;3;5;4])) /\
  GLC_V2 below_exact (fun _ it => it <=? 2) 6 ex6Lp ex6Li (repeat 1 6) 2 true
    = Ok ([0;2;3], (2, [0;2;4], [0;4;5;6;6], [0;2;1;3;5;4])).
Proof.
  assert (W : wf_csc 6 ex6Lp ex6Li) by now apply wf_cscb_ok.
  assert (DF : diag_first 6 ex6Lp ex6Li) by now apply diag_firstb_ok.
  splits; auto; try (vm_compute; reflexivity).
  - now apply lower_trib_ok.
  - intros (Hn & HV).
    destruct (build_levelSet_total 6 ex6Lp ex6Li (repeat 0 7) (repeat 0 6) (repeat 0 6) W
       (one_diag_of_first _ _ _ DF)) as (k & ptr & lset & n2l & Eq & H); try (simpl; lia); auto.
    vm_compute in Eq. inversion Eq; subst k. destruct H as [(? & _)|(_ & _ & H)]; [discriminate|]. apply H. auto.
  - intros x Hx. rewrite aget_repeat; auto.
Qed.

(** 0 -> 1 -> 2 *)
Example C17_case : visits_all 3 (edge 3 [0;2;4;5] [0;1;1;2;2]) /\
  HDAGG below_exact (fun _ _ => true) 0 3 [0;2;4;5] [0;1;1;2;2] (repeat 1 3) 2 true true = Err Throw.
Proof.
  split; [|reflexivity]. exists [0;1;2]. split.
  - apply is_perm_intro; auto.
    + repeat constructor; simpl; lia.
    + intros x Hx. simpl in Hx. lia.
  - intros [|[|i]] Hi; [| |lia]; unfold edge, entry, aget; simpl.
    + splits; auto; try lia. exists 1. lia.
    + splits; auto; try lia. exists 3. lia.
Qed.

Example C13_case : balance below_exact 3 5 11 [2;1;4;3;1] (repeat 0 4) = Ok ([0;3;4;5], [7;3;1]).
Proof. vm_compute. reflexivity. Qed.

(** C49.  The incremental component computation inside HDAGG (computeCC): the hook and
    jump rounds resume from the labels of a shorter window.  Under every interleaving no
    access is out of bounds, there is no infinite execution, an unfinished execution can
    step, and every finished one leaves exactly the labels of the single-threaded run,
    which name the components of the longer window by least position. *)

Definition labelled n Lp Li (nodes lab : list nat) : Prop :=
  length lab = n /\ (forall v, v < n -> ~ In v nodes -> lab.[v] = n) /\
  (forall i, i < length nodes ->
     let conn := connected (edge_within (edge n Lp Li) nodes) in
     lab.[nodes.[i]] < length nodes /\ conn nodes.[i] nodes.[lab.[nodes.[i]]] /\
     forall j, j < length nodes -> conn nodes.[i] nodes.[j] -> lab.[nodes.[i]] <= j).

Lemma labelled_cc n Lp Li nodes lab : (forall v, In v nodes -> v < n) ->
  (labelled n Lp Li nodes lab <-> cc_labels n Lp Li nodes (repeat n n) lab).
Proof.
  intros HB. unfold labelled, cc_labels. rewrite repeat_length. split; intros (A1 & A2 & A3); splits; auto.
  - intros x Hx. destruct (lt_dec x n) as [Hn|Hn].
    + rewrite aget_repeat by auto. auto.
    + unfold aget. rewrite !nth_overflow; auto; rewrite ?repeat_length; lia.
  - intros v Hv Hn. rewrite A2 by auto. now apply aget_repeat.
Qed.

Theorem C49_incremental_components_any_interleaving :
  forall n Lp Li k ptr lset n2l lb comp ub lab,
  wf_csc n Lp Li -> levels_input n Lp Li k ptr lset n2l -> lb <= comp -> comp <= ub -> ub <= k ->
  let old := slice lset ptr.[lb] ptr.[comp] in
  let nodes := slice lset ptr.[lb] ptr.[ub] in
  labelled n Lp Li old lab ->
  exists lab1 lab2,
    cc_new_nodes n nodes (ptr.[comp] - ptr.[lb]) lab = Ok lab1 /\
    cc_iterate Lp Li lb ub n2l nodes lab1 = Ok lab2 /\ labelled n Lp Li nodes lab2 /\
    let start := (PHook (repeat HStart (length nodes)) false, lab1) in
    (forall s, cc_steps Lp Li lb ub n2l nodes start s -> ~ cc_bad Lp Li lb ub n2l nodes s) /\
    (~ exists run : nat -> cc_state, run 0 = start /\ forall i, cc_step Lp Li lb ub n2l nodes (run i) (run (S i))) /\
    (forall s, cc_steps Lp Li lb ub n2l nodes start s ->
       (exists m, s = (PFin, m)) \/ exists s', cc_step Lp Li lb ub n2l nodes s s') /\
    (forall m, cc_steps Lp Li lb ub n2l nodes start (PFin, m) -> m = lab2).
Proof.
  intros n Lp Li k ptr lset n2l lb comp ub lab W LI H1 H2 H3 old nodes HLab.
  pose proof (levels_input_rank _ _ _ _ _ _ _ W LI) as HE. destruct LI as (P & O & L1 & L2 & L3 & L4).
  assert (NB : forall x, In x nodes -> x < n).
  { exact (fun x => wlt n k Lp Li ptr lset n2l P L1 L2 L3 L4 HE lb ub x ltac:(lia) H3). }
  assert (NBo : forall x, In x old -> x < n).
  { exact (fun x => wlt n k Lp Li ptr lset n2l P L1 L2 L3 L4 HE lb comp x ltac:(lia) ltac:(lia)). }
  assert (ND : NoDup nodes).
  { exact (wnodup n k Lp Li ptr lset n2l P L1 L2 L3 L4 HE lb ub ltac:(lia) H3). }
  assert (HW : forall v, v < n -> (In v nodes <-> lb <= n2l.[v] < ub)).
  { exact (fun v => win_iff n k Lp Li ptr lset n2l P L1 L2 L3 L4 HE lb ub v ltac:(lia) H3). }
  apply labelled_cc in HLab; auto.
  assert (G := cc_new_nodes_wp n k Lp Li ptr lset n2l (repeat 0 n) P L1 L2 L3 L4 HE ltac:(rewrite repeat_length; lia) lb comp ub lab
    (fun m' => length m' = n /\ good n Lp Li nodes m' /\ star nodes m' /\ forall x, x < n -> ~ In x nodes -> m'.[x] = n)
    H1 H2 H3 HLab (fun m' a b c d => conj a (conj b (conj c d)))).
  apply wp_ok in G. destruct G as (lab1 & E1 & M1 & G1 & S1 & O1).
  assert (HI : Inv n Lp Li nodes lab1 (PHook (repeat HStart (length nodes)) false, lab1)).
  { eapply resume_inv; eauto. }
  assert (HF : forall m, Inv n Lp Li nodes lab1 (PFin, m) -> cc_labels n Lp Li nodes (repeat n n) m).
  { intros m Hm. pose proof (fin_labels n Lp Li lb ub n2l nodes NB L3 HW lab1 m Hm) as (X1 & X2 & X3).
    unfold cc_labels. rewrite repeat_length. splits; auto; [lia|]. intros x Hx. rewrite X2 by auto.
    destruct (lt_dec x n); [rewrite aget_repeat by auto; auto|].
    unfold aget. rewrite !nth_overflow; auto; rewrite ?repeat_length; lia. }
  assert (G := cc_iterate_wp n Lp Li lb ub n2l nodes W ND NB L3 HW lab1 (fun m => Inv n Lp Li nodes lab1 (PFin, m)) G1 S1
    (fun m' a b c d => conj a (conj b (conj c d)))).
  apply wp_ok in G. destruct G as (lab2 & E2 & HI2).
  exists lab1, lab2. split; [auto|]. split; [auto|]. split; [apply labelled_cc; auto|]. cbv zeta. splits.
  - intros s Hs. exact (inv_not_bad n Lp Li lb ub n2l nodes W ND NB L3 HW lab1 s
       (steps_inv n Lp Li lb ub n2l nodes W ND NB L3 HW lab1 _ s HI Hs)).
  - apply term_no_infinite. apply (term_hook_start n Lp Li lb ub n2l nodes W ND NB L3 HW (S (psum nodes lab1)) lab1); auto; lia.
  - intros s Hs. exact (progress n Lp Li lb ub n2l nodes W ND NB L3 HW lab1 s
       (steps_inv n Lp Li lb ub n2l nodes W ND NB L3 HW lab1 _ s HI Hs)).
  - intros m Hs. pose proof (steps_inv n Lp Li lb ub n2l nodes W ND NB L3 HW lab1 _ _ HI Hs) as Hm.
    exact (cc_labels_unique n Lp Li lb ub n2l nodes NB L3 HW (repeat n n) _ _ (HF _ Hm) (HF _ HI2)).
Qed.
Print Assumptions C49_incremental_components_any_interleaving.

(** labels of level 0 extended by level 1 *)
Example C49_case :
  cc_new_nodes 5 [0;1;2;3] 2 [0;1;5;5;5] = Ok [0;1;2;3;5] /\
  cc_iterate [0;2;4;6;8;9] [0;2;1;3;2;4;3;4;4] 0 2 [0;0;1;1;2] [0;1;2;3] [0;1;2;3;5] = Ok [0;1;0;1;5].
Proof. split; reflexivity. Qed.

(** C50.  The assertion chunk_array.back() == part_ptr.size() - 1 (hdagg.cpp 430, 1050),
    active in builds without NDEBUG, does not hold for every input: when the last level
    is accepted the stored row is the one of the window without that level. *)
Theorem C50_debug_assertion_refuted :
  ~ (forall below accept n Lp Li node_cost cores k ptr lset n2l WM sizes wm pp np,
      wf_csc n Lp Li -> diag_first n Lp Li -> lower_tri n Lp Li -> positive_costs n node_cost -> n <= length node_cost ->
      2 <= cores -> rounding_ok below ->
      build_levelSet_CSC n Lp Li (repeat 0 (n + 1)) (repeat 0 n) (repeat 0 n) = Ok (Z.of_nat k, (ptr, lset, n2l)) ->
      search_all below accept n Lp Li ptr lset n2l node_cost cores k = Ok (WM, sizes) -> S wm < length WM ->
      window_parts n Lp Li ptr lset n2l WM.[wm] WM.[S wm] = Ok (pp, np) ->
      back sizes.[wm] = Ok (length pp - 1)).
Proof.
  intros H.
  assert (G := H below_exact (fun _ _ => true) 6 ex6Lp ex6Li (repeat 1 6) 2 3 [0;3;5;6;0;0;0] [0;1;5;2;3;4] [0;0;1;1;2;0]
    [0;3] [[0;2;3];[];[]] 0 [0;5;6] [0;1;2;3;4;5]).
  assert (G' : back [[0;2;3];[];[]].[0] = Ok (length [0;5;6] - 1)); [|discriminate G'].
  apply G.
  - now apply wf_cscb_ok.
  - now apply diag_firstb_ok.
  - now apply lower_trib_ok.
  - intros x Hx. rewrite aget_repeat; auto.
  - simpl; lia.
  - lia.
  - apply rounding_exact.
  - vm_compute. reflexivity.
  - vm_compute. reflexivity.
  - simpl; lia.
  - vm_compute. reflexivity.
Qed.
Print Assumptions C50_debug_assertion_refuted.

(** C51.  One core and nodes of cost zero: the share becomes 0/0, the core index passes
    the number of cores and cost[1] is read out of bounds, for every such graph. *)
Lemma zero_one_level n ptr lset nc lb m m' cnt pc total : (forall x, nc.[x] = 0) ->
  cc_one_level n ptr lset nc lb (S lb) m = Ok (m', cnt, pc, total) -> total = 0.
Proof.
  intros HZ. unfold cc_one_level.
  destruct (rd ptr lb) as [a|]; simpl; [|discriminate]. destruct (rd ptr (S lb)) as [b|]; simpl; [|discriminate].
  match goal with |- bind ?X _ = _ -> _ => assert (G : Lib2.pc X (fun '(_, _, t) => t = 0)) end.
  { apply (pc_for (fun '(_, _, t) => t = 0)); auto.
    intros i ((x & y) & t) ->. apply pc_bind, pc_any. intros node. apply pc_bind, pc_any. intros n2p.
    apply pc_bind. intros c Hc. assert (c = 0) as ->.
    { unfold rd in Hc. destruct (nth_error nc node) eqn:En; [|discriminate]. inversion Hc; subst c.
      rewrite <- (HZ node). unfold aget. symmetry. now apply nth_error_nth. }
    apply pc_bind, pc_any. intros pcost. apply pc_ret. reflexivity. }
  intros Eq. match type of Eq with bind ?X _ = _ => destruct X as [((x & y) & t)|e] eqn:EX end; simpl in Eq; [|discriminate].
  specialize (G _ eq_refl). simpl in G. inversion Eq; subst. auto.
Qed.

Lemma n_components_pos R nodes K x : n_components R nodes K -> In x nodes -> 0 < K.
Proof.
  intros (reps & <- & _ & _ & H & _) Hx. destruct (H x Hx) as (r & Hr & _). destruct reps; [easy|simpl; lia].
Qed.

Theorem C51_one_core_zero_costs_out_of_bounds :
  forall below accept junk n Lp Li node_cost postOrder bin_pack,
  dag_input n Lp Li -> 0 < n -> n <= length node_cost -> (forall x, node_cost.[x] = 0) -> rounding_ok below ->
  HDAGG below accept junk n Lp Li node_cost 1 postOrder bin_pack = Err OOB.
Proof.
  intros below accept junk n Lp Li nc po bp DI Hn HL HZ (R1 & R2). pose proof DI as (W & _).
  destruct (HDAGG_levels n Lp Li DI) as (k & ptr & lset & n2l & Eq & HX & L1 & L2 & L3).
  destruct (levels_rank n Lp Li k ptr lset n2l W HX) as [HR HP]. pose proof HX as (LP & _).
  pose proof (run_in_level n k Lp Li ptr lset n2l HX) as HN.
  assert (Hk : 0 < k) by (destruct HX as (_ & _ & _ & HK & _); now destruct (HK Hn)).
  assert (Hne : exists v, v < n /\ In v (win_nodes ptr lset 0 1)).
  { destruct (levels_nonempty n Lp Li k ptr lset n2l 0 W HX Hn Hk) as (v & Hv & Hin). exists v. split; auto.
    apply (win_iff n k Lp Li ptr lset n2l LP L1 L2 L3 HN HR 0 1 v); auto; try lia. rewrite (HN 0 v Hk Hin). lia. }
  assert (G : wp (computeCC n Lp Li ptr lset n2l nc 0 0 1 (repeat n n)) (fun '(m, cnt, pcost, total) => total = 0 /\ 0 < cnt <= length pcost)).
  { pose proof (computeCC_wp n k Lp Li ptr lset n2l nc W LP L1 L2 L3 HN HR HL 0 0 1 (repeat n n)
      (cc_post n Lp Li ptr lset nc 0 1) ltac:(lia) ltac:(lia) ltac:(lia)
      (labels_init n k Lp Li ptr lset n2l nc L1 L2 L3 HN HR HL 0) ltac:(auto)) as G.
    apply wp_ok in G. destruct G as ((((m & cnt) & pcost) & total) & Ec & (C1 & C2 & C3 & C4 & C5 & C6)).
    rewrite Ec. simpl. destruct Hne as (v & Hv & Hin). split; [|split; [eapply n_components_pos; eauto|lia]].
    unfold computeCC in Ec. destruct (sub_nodes ptr lset 0 1); simpl in Ec; [|discriminate].
    destruct (rd ptr 0); simpl in Ec; [|discriminate]. eapply zero_one_level; eauto. }
  apply wp_ok in G. destruct G as ((((m & cnt) & pcost) & total) & Ec & -> & Hc).
  unfold HDAGG. rewrite Eq. simpl bind. destruct (Z.ltb_spec (Z.of_nat k) 0); [lia|]. rewrite Nat2Z.id.
  assert (Es : search_window below accept n Lp Li ptr lset n2l nc 1 k 0 0 (repeat [] k) = Err OOB).
  { unfold search_window. replace (min (0 + 1) k) with 1 by lia. remember (S k) as f. simpl while_. unfold search_step at 1.
    cbn [w_n2p w_acc w_chunk w_sizes w_computed w_prev w_cand w_ub w_iter w_eff w_done].
    rewrite wr_ok by (rewrite repeat_length; lia). simpl bind. rewrite (rd_ok ptr 1) by lia.
    rewrite (rd_ok ptr 0) by lia. simpl bind. rewrite Ec. simpl bind. unfold balance at 1. destruct (Nat.ltb_spec cnt 1); [lia|].
    simpl while_. destruct (Nat.ltb_spec 0 cnt); [|lia]. simpl. unfold balance_step at 1. simpl. unfold lt_share at 1. simpl. rewrite R2. simpl.
    replace (cnt + 1) with (S cnt) by lia. simpl. destruct (Nat.ltb_spec 0 cnt); [|lia]. simpl. reflexivity. }
  unfold search_all. simpl while_. destruct (Nat.ltb_spec 0 k); [|lia]. simpl. rewrite Es. reflexivity.
Qed.
Print Assumptions C51_one_core_zero_costs_out_of_bounds.

Example C51_case : dag_input 6 ex6Lp ex6Li /\
  HDAGG below_exact (fun _ _ => true) 0 6 ex6Lp ex6Li (repeat 0 6) 1 false false = Err OOB.
Proof.
  split; [|vm_compute; reflexivity]. destruct C14_case as (W & DF & LT & V & _).
  unfold dag_input. splits; auto; [now apply one_diag_of_first|].
  intros u c Hc. assert (G : forall a b m, chain (edge 6 ex6Lp ex6Li) a b m -> a + m <= b).
  { intros a b m Hm. induction Hm as [|a b d m Hm IH He]; [lia|]. specialize (LT b d He). lia. }
  apply G in Hc. lia.
Qed.
