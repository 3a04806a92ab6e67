(** Property C155: merge_inner_part packs consecutive parts into clusters. *)
From Coq Require Import ZifyBool ZifyNat.
From Verif Require Import Base Lib M_LBC P_Collect.

(** cost of the parts a .. b-1 *)
Definition run_cost (cost : list Z) (a b : nat) : Z := fold_right Z.add 0%Z (map (aget cost) (seq a (b - a))).
(** nodes of the parts a .. b-1, in order *)
Definition run_nodes (parts : list (list nat)) (a b : nat) : list nat := concat (map (aget parts) (seq a (b - a))).

(** The clusters are the runs c 0 .. c 1 - 1, c 1 .. c 2 - 1, ... of the parts: none is empty, each reaches the threshold with its
    last part and not before, but the last one need not reach it. *)
Definition greedy_runs (cost : list Z) (threshold : Z) (nparts k : nat) (c : nat -> nat) : Prop :=
  c 0 = 0 /\ c k = nparts /\
  forall j, j < k -> c j < c (S j) /\ (forall m, c j <= m < c (S j) -> (run_cost cost (c j) m < threshold)%Z) /\
    (S j < k -> (threshold <= run_cost cost (c j) (c (S j)))%Z).

Lemma fold_snoc l x : fold_right Z.add 0%Z (l ++ [x]) = (fold_right Z.add 0 l + x)%Z.
Proof. induction l as [|y l IH]; cbn [app fold_right]; [lia|]. rewrite IH. lia. Qed.
Lemma seq_snoc a b : a <= b -> seq a (S b - a) = seq a (b - a) ++ [b].
Proof. intros. replace (S b - a) with ((b - a) + 1) by lia. rewrite seq_app. cbn [seq]. do 2 f_equal. lia. Qed.
Lemma run_cost_S cost a b : a <= b -> run_cost cost a (S b) = (run_cost cost a b + cost.[b])%Z.
Proof. intros. unfold run_cost. rewrite seq_snoc by lia. rewrite map_app. apply fold_snoc. Qed.
Lemma run_nodes_S parts a b : a <= b -> run_nodes parts a (S b) = run_nodes parts a b ++ parts.[b].
Proof. intros. unfold run_nodes. rewrite seq_snoc by lia. rewrite map_app, concat_app. cbn. now rewrite app_nil_r. Qed.
Lemma run_cost_nil cost a : run_cost cost a a = 0%Z. Proof. unfold run_cost. now rewrite Nat.sub_diag. Qed.
Lemma run_nodes_nil parts a : run_nodes parts a a = []. Proof. unfold run_nodes. now rewrite Nat.sub_diag. Qed.

Section Merge.
Variables (parts : list (list nat)) (inCost : list Z) (merged : list (list nat)) (outCost : list Z) (threshold : Z).
Hypothesis HC : length parts <= length inCost.
Hypothesis HM : length parts <= length merged.
Hypothesis HT : (0 < threshold)%Z.
Let N := length parts.

(** after k clusters, which hold the first i parts *)
Definition inv (i k : nat) (mg : list (list nat)) (oc : list Z) : Prop :=
  i <= N /\ k <= i /\ length mg = length merged /\ length oc = length outCost /\ oc.[0] = outCost.[0] /\ (0 < k -> k < length outCost) /\
  exists c, c 0 = 0 /\ c k = i /\
  (forall j, j < k -> c j < c (S j) /\ (forall m, c j <= m < c (S j) -> (run_cost inCost (c j) m < threshold)%Z) /\
     (threshold <= run_cost inCost (c j) (c (S j)) \/ c (S j) = N)%Z /\
     mg.[j] = merged.[j] ++ run_nodes parts (c j) (c (S j)) /\ oc.[S j] = run_cost inCost (c j) (c (S j))) /\
  (forall j, k <= j -> mg.[j] = merged.[j]) /\ (forall j, k < j -> oc.[j] = outCost.[j]).

Definition result (r : nat * (list (list nat) * list Z)) : Prop :=
  let '(k, (mg, oc)) := r in
  length mg = length merged /\ length oc = length outCost /\ oc.[0] = outCost.[0] /\ (0 < k -> k < length outCost) /\
  exists c, greedy_runs inCost threshold N k c /\
  (forall j, j < k -> mg.[j] = merged.[j] ++ run_nodes parts (c j) (c (S j)) /\ oc.[S j] = run_cost inCost (c j) (c (S j))) /\
  (forall j, k <= j -> mg.[j] = merged.[j]) /\ (forall j, k < j -> oc.[j] = outCost.[j]).

Lemma inv_result k mg oc : inv N k mg oc -> result (k, (mg, oc)).
Proof.
  intros (_ & _ & L1 & L2 & O & K & c & C0 & CK & F & M & U). cbn. splits; auto. exists c. splits; auto.
  - unfold greedy_runs. splits; auto. intros j Hj. destruct (F j Hj) as (A & B & D & _). splits; auto. intros H. destruct D as [D|D]; [exact D|].
    destruct (F (S j) H) as (A' & _). assert (X : forall a b, a <= b -> b <= k -> c a <= c b).
    { intros a b Hab. induction Hab as [|b Hab IH]; intros Hb; [lia|]. destruct (F b ltac:(lia)) as (? & _). specialize (IH ltac:(lia)). lia. }
    specialize (X (S (S j)) k ltac:(lia) ltac:(lia)). lia.
  - intros j Hj. destruct (F j Hj) as (_ & _ & _ & A & B). auto.
Qed.

(** the inner loop *)
Lemma inner i k mg (Q : nat * Z * list (list nat) -> Prop) : i < N -> k <= i -> length mg = length merged ->
  (forall i' mg', i < i' <= N -> length mg' = length mg -> (forall m, i <= m < i' -> (run_cost inCost i m < threshold)%Z) ->
     (threshold <= run_cost inCost i i' \/ i' = N)%Z -> mg'.[k] = mg.[k] ++ run_nodes parts i i' -> (forall j, j <> k -> mg'.[j] = mg.[j]) ->
     Q (i', run_cost inCost i i', mg')) ->
  wp (while_ (S N) (fun '(i, cur, merged) => Ok ((cur <? threshold)%Z && (i <? N)))
          (fun '(i, cur, merged) =>
             c <- rd inCost i ;; l <- rd merged k ;; p <- rd parts i ;; merged <- wr merged k (l ++ p) ;;
             Ok (S i, (cur + c)%Z, merged)) (i, 0%Z, mg)) Q.
Proof.
  intros Hi Hk HL HQ.
  apply (wp_while (fun '(i', cur, mg') => i <= i' <= N /\ length mg' = length mg /\ cur = run_cost inCost i i' /\
           (forall m, i <= m < i' -> (run_cost inCost i m < threshold)%Z) /\
           mg'.[k] = mg.[k] ++ run_nodes parts i i' /\ (forall j, j <> k -> mg'.[j] = mg.[j])) (fun '(i', _, _) => N - i')).
  - rewrite run_cost_nil, run_nodes_nil, app_nil_r. splits; auto; lia.
  - lia.
  - intros [[i' cur] mg'] (B & L & -> & T & E & O). apply wp_ret. destruct ((run_cost inCost i i' <? threshold)%Z && (i' <? N)) eqn:D.
    + apply andb_true_iff in D. destruct D as [D1 D2]. apply wp_bind. apply wp_rd; [lia|]. apply wp_bind. apply wp_rd; [lia|]. apply wp_bind. apply wp_rd; [unfold N in *; lia|].
      apply wp_bind. apply wp_wr; [lia|]. apply wp_ret. splits; try lia.
      * now rewrite upd_length.
      * now rewrite run_cost_S by lia.
      * intros m Hm. destruct (Nat.eq_dec m i') as [->|]; [lia|]. apply T. lia.
      * rewrite aget_upd_eq by lia. rewrite E, run_nodes_S by lia. now rewrite app_assoc.
      * intros j Hj. rewrite aget_upd_ne by lia. now apply O.
    + destruct (Nat.eq_dec i' i) as [->|]; [rewrite run_cost_nil in D; lia|]. apply HQ; auto; lia.
Qed.

(** one more cluster *)
Lemma inv_step i k mg oc i' mg' : inv i k mg oc -> i < i' <= N -> length mg' = length mg -> (forall m, i <= m < i' -> (run_cost inCost i m < threshold)%Z) ->
  (threshold <= run_cost inCost i i' \/ i' = N)%Z -> mg'.[k] = mg.[k] ++ run_nodes parts i i' -> (forall j, j <> k -> mg'.[j] = mg.[j]) -> S k < length oc ->
  inv i' (S k) mg' (upd oc (S k) (run_cost inCost i i')).
Proof.
  intros (B1 & B2 & L1 & L2 & O0 & KL & c & C0 & CK & F & M & U) HI HL HT' HG HE HO HB.
  unfold inv. rewrite upd_length. splits; auto; try lia.
  - rewrite aget_upd_ne by lia. exact O0.
  - exists (fun j => if j =? S k then i' else c j).
    splits.
    + exact C0.
    + now rewrite Nat.eqb_refl.
    + intros j Hj. replace (j =? S k) with false by lia. destruct (Nat.eq_dec j k) as [->|].
      * rewrite Nat.eqb_refl, CK. splits; auto; [lia| |].
        -- rewrite HE. now rewrite M by lia.
        -- apply aget_upd_eq. lia.
      * replace (S j =? S k) with false by lia. destruct (F j ltac:(lia)) as (A & B & D & E & G). splits; auto.
        -- now rewrite HO by lia.
        -- now rewrite aget_upd_ne by lia.
    + intros j Hj. rewrite HO by lia. apply M. lia.
    + intros j Hj. rewrite aget_upd_ne by lia. apply U. lia.
Qed.

Lemma inv_start : inv 0 0 merged outCost.
Proof. unfold inv. splits; auto; try lia. exists (fun _ => 0). splits; auto; lia. Qed.

Lemma merge_wp : N < length outCost \/ N = 0 -> wp (merge_inner_part parts inCost merged outCost threshold) result.
Proof.
  intros HO. unfold merge_inner_part. cbv zeta. apply wp_bind.
  apply (wp_while (fun '(i, k, mg, oc) => inv i k mg oc) (fun '(i, _, _, _) => N - i)); [apply inv_start|unfold N; lia|].
  intros [[[i k] mg] oc] HI. apply wp_ret. fold N. destruct (Nat.ltb_spec i N).
  - apply wp_bind. pose proof HI as (B1 & B2 & L1 & L2 & _). apply inner; auto. intros i' mg' HB HL HT' HG HE HOt.
    apply wp_bind. apply wp_wr; [lia|]. apply wp_ret. split; [|lia]. apply (inv_step i k mg oc); auto. lia.
  - pose proof HI as (B1 & _). replace i with N in HI by lia. apply wp_ret. now apply inv_result.
Qed.
End Merge.

(** The clusters are runs of consecutive parts, their nodes in order behind what was there, and the cost of cluster j is stored at
    j + 1 (the element 0 of outCost is not written).  outCost needs one element more than there are clusters. *)
Theorem C155_clusters : forall parts inCost merged outCost threshold,
  length parts <= length inCost -> length parts <= length merged -> (0 < threshold)%Z -> length parts < length outCost ->
  exists k mg oc c, merge_inner_part parts inCost merged outCost threshold = Ok (k, (mg, oc)) /\
    greedy_runs inCost threshold (length parts) k c /\ length mg = length merged /\ length oc = length outCost /\
    (forall j, j < k -> mg.[j] = merged.[j] ++ run_nodes parts (c j) (c (S j)) /\ oc.[S j] = run_cost inCost (c j) (c (S j))) /\
    (forall j, k <= j -> mg.[j] = merged.[j]) /\ (forall j, j = 0 \/ k < j -> oc.[j] = outCost.[j]).
Proof.
  intros parts ic mg oc th HC HM HT HO. pose proof (merge_wp parts ic mg oc th HC HM HT (or_introl HO)) as W. apply wp_ok in W.
  destruct W as ([k [mg' oc']] & E & L1 & L2 & O0 & K & c & G & F & M & U). exists k, mg', oc', c. splits; auto. intros j [->|Hj]; auto.
Qed.
Print Assumptions C155_clusters.

(** Nothing is lost and nothing reordered: into empty clusters, the clusters one after the other are the parts one after the other. *)
Theorem C155_same_nodes : forall parts inCost merged outCost threshold k mg oc,
  length parts <= length inCost -> length parts <= length merged -> (forall l, In l merged -> l = []) -> (0 < threshold)%Z -> length parts < length outCost ->
  merge_inner_part parts inCost merged outCost threshold = Ok (k, (mg, oc)) -> concat mg = concat parts /\ k <= length parts.
Proof.
  intros parts ic merged oc th k mg oc' HC HM HE HT HO E. destruct (C155_clusters parts ic merged oc th HC HM HT HO) as (k' & mg' & oc2 & c & E' & (C0 & CK & G) & L1 & L2 & F & M & U).
  rewrite E in E'. injection E' as <- <- <-.
  assert (Z0 : forall j, merged.[j] = []). { intros j. destruct (Nat.lt_ge_cases j (length merged)); [apply HE, aget_In; auto|]. now apply nth_overflow. }
  assert (KL : forall j, j <= k -> j <= c j). { induction j as [|j IH]; intros Hj; [lia|]. destruct (G j ltac:(lia)) as (A & _). specialize (IH ltac:(lia)). lia. }
  assert (P : forall j, j <= k -> concat (map (aget mg) (seq 0 j)) = run_nodes parts 0 (c j)).
  { induction j as [|j IH]; intros Hj; [rewrite C0; reflexivity|]. rewrite seq_S, map_app, concat_app, IH by lia. cbn [Nat.add map concat]. rewrite app_nil_r.
    destruct (F j ltac:(lia)) as (-> & _). rewrite Z0. cbn [app]. destruct (G j ltac:(lia)) as (A & _). unfold run_nodes. rewrite <- concat_app, <- map_app, !Nat.sub_0_r.
    replace (c (S j)) with (c j + (c (S j) - c j)) at 2 by lia. rewrite seq_app. reflexivity. }
  specialize (KL k ltac:(lia)). split; [|lia].
  assert (S1 : forall A (l : list (list A)), map (aget l) (seq 0 (length l)) = l).
  { intros A l. apply list_ext; [now rewrite map_length, seq_length|]. intros i Hi. rewrite map_length, seq_length in Hi. rewrite aget_map_seq by lia. reflexivity. }
  rewrite <- (S1 _ mg), <- (S1 _ parts). replace (length mg) with (k + (length mg - k)) by lia. rewrite seq_app, map_app, concat_app, P by lia.
  rewrite CK. unfold run_nodes. rewrite Nat.sub_0_r, S1.
  replace (concat (map (aget mg) (seq (0 + k) (length mg - k)))) with (@nil nat); [now rewrite app_nil_r|].
  symmetry. cbn [Nat.add]. generalize (length mg - k) as d. clear - M Z0. intros d. assert (X : forall a, k <= a -> concat (map (aget mg) (seq a d)) = []).
  { induction d as [|d IH]; intros a Ha; [reflexivity|]. cbn [seq map concat]. rewrite M, Z0, IH by lia. reflexivity. }
  apply X. lia.
Qed.
Print Assumptions C155_same_nodes.

Lemma runs_le cost th N k c : greedy_runs cost th N k c -> forall a b, a <= b -> b <= k -> c a <= c b.
Proof. intros (_ & _ & G) a b Hab. induction Hab as [|b Hab IH]; intros Hb; [lia|]. destruct (G b ltac:(lia)) as (? & _). specialize (IH ltac:(lia)). lia. Qed.

Lemma runs_step cost th N k c k' c' j : greedy_runs cost th N k c -> greedy_runs cost th N k' c' -> j < k -> j < k' -> c j = c' j -> c' (S j) <= c (S j).
Proof.
  intros G1 G2 H H' E. destruct (Nat.le_gt_cases (c' (S j)) (c (S j))) as [|X]; [auto|exfalso].
  pose proof (runs_le cost th N k' c' G2 (S j) k' ltac:(lia) ltac:(lia)). destruct G1 as (_ & CK & G1). destruct G2 as (_ & CK' & G2).
  destruct (G1 j H) as (A & _ & D). destruct (G2 j H') as (_ & B & _). specialize (B (c (S j)) ltac:(lia)). rewrite <- E in B.
  destruct (Nat.eq_dec (S j) k) as [EK|]; [subst k; lia|]. specialize (D ltac:(lia)). lia.
Qed.

(** the clusters are determined by the costs *)
Lemma runs_unique cost th N k c k' c' : greedy_runs cost th N k c -> greedy_runs cost th N k' c' -> k = k'.
Proof.
  intros G1 G2. assert (E : forall j, j <= k -> j <= k' -> c j = c' j).
  { induction j as [|j IH]; intros H H'; [destruct G1 as (-> & _), G2 as (-> & _); reflexivity|]. specialize (IH ltac:(lia) ltac:(lia)).
    pose proof (runs_step _ _ _ _ _ _ _ j G1 G2 ltac:(lia) ltac:(lia) IH). pose proof (runs_step _ _ _ _ _ _ _ j G2 G1 ltac:(lia) ltac:(lia) (eq_sym IH)). lia. }
  pose proof (runs_le _ _ _ _ _ G1) as M1. pose proof (runs_le _ _ _ _ _ G2) as M2. pose proof G1 as (_ & CK & F1). pose proof G2 as (_ & CK' & F2).
  destruct (Nat.lt_trichotomy k k') as [X|[X|X]]; [exfalso|exact X|exfalso].
  - specialize (E k ltac:(lia) ltac:(lia)). destruct (F2 k X) as (A & _). specialize (M2 (S k) k' ltac:(lia) ltac:(lia)). lia.
  - specialize (E k' ltac:(lia) ltac:(lia)). destruct (F1 k' X) as (A & _). specialize (M1 (S k') k ltac:(lia) ltac:(lia)). lia.
Qed.

(** With as many costs as clusters, or fewer, the last cost is written behind the array. *)
Theorem C155_costs_out_of_bounds : forall parts inCost merged outCost threshold k c,
  length parts <= length inCost -> length parts <= length merged -> (0 < threshold)%Z ->
  greedy_runs inCost threshold (length parts) k c -> 0 < k -> length outCost <= k ->
  merge_inner_part parts inCost merged outCost threshold = Err OOB.
Proof.
  intros parts ic mg0 oc0 th k c HC HM HT G K0 HL.
  assert (W : oob_or (merge_inner_part parts ic mg0 oc0 th) (result parts ic mg0 oc0 th)).
  { unfold merge_inner_part. cbv zeta. apply oo_bind.
    apply (oo_while (fun '(i, k, mg, oc) => inv parts ic mg0 oc0 th i k mg oc) (fun x => let '(i, _, _, _) := x in length parts - i)); [apply inv_start; auto|cbn; lia|].
    intros [[[i k1] mg] oc] HI. apply oo_ret. destruct (Nat.ltb_spec i (length parts)).
    - apply oo_bind. pose proof HI as (B1 & B2 & L1 & L2 & _). apply oo_wp. apply (inner parts ic mg0 th); auto. intros i' mg' HB HL' HT' HG HE HOt.
      apply oo_bind. apply oo_wr. intros HW. apply oo_ret. split; [|lia]. eapply inv_step; eassumption.
    - pose proof HI as (B1 & _). replace i with (length parts) in HI by lia. apply oo_ret. now apply inv_result. }
  destruct (merge_inner_part parts ic mg0 oc0 th) as [[k' [mg oc]]|e]; cbn in W; [exfalso|congruence].
  destruct W as (_ & _ & _ & KL & c' & G' & _). pose proof (runs_unique _ _ _ _ _ _ _ G G'). subst k'. specialize (KL K0). lia.
Qed.
Print Assumptions C155_costs_out_of_bounds.

(** A threshold that is not positive takes no part at all: the loop only ends by writing behind outCost. *)
Theorem C155_threshold_out_of_bounds : forall parts inCost merged outCost threshold, 0 < length parts -> (threshold <= 0)%Z ->
  merge_inner_part parts inCost merged outCost threshold = Err OOB.
Proof.
  intros parts ic mg oc th HN HT. unfold merge_inner_part. cbv zeta.
  match goal with |- bind (while_ _ ?cond ?body _) _ = _ => set (C := cond); set (B := body) end.
  assert (EC : forall k oc, C (0, k, mg, oc) = Ok true) by (intros; unfold C; now replace (0 <? length parts) with true by lia).
  assert (EB : forall k oc, B (0, k, mg, oc) = (oc <- wr oc (S k) 0%Z ;; Ok (0, S k, mg, oc))).
  { intros k oc'. unfold B. cbn [while_ bind]. replace (0 <? th)%Z with false by lia. reflexivity. }
  assert (X : forall f k oc, length oc < k + f -> 0 < f -> while_ f C B (0, k, mg, oc) = Err OOB).
  { induction f as [|f IH]; intros k oc' H1 H2; [lia|]. cbn [while_]. rewrite EC. cbn [bind]. rewrite EB. destruct (Nat.lt_ge_cases (S k) (length oc')).
    - rewrite wr_ok by auto. cbn [bind]. apply IH; [rewrite upd_length; lia|lia].
    - assert (E : wr oc' (S k) 0%Z = Err OOB) by (unfold wr; destruct (Nat.ltb_spec (S k) (length oc')); [lia|reflexivity]). now rewrite E. }
  rewrite X by lia. reflexivity.
Qed.
Print Assumptions C155_threshold_out_of_bounds.

(** three clusters of four parts with threshold 5; an array of three costs is too small *)
Example C155_nonvacuous :
  merge_inner_part [[0;1];[2];[3;4];[5]] [4;3;6;1]%Z (repeat [] 4) (repeat 9 5)%Z 5 = Ok (3, ([[0;1;2];[3;4];[5];[]], [9;7;6;1;9]%Z)) /\
  greedy_runs [4;3;6;1]%Z 5 4 3 (fun j => nth j [0;2;3;4] 0) /\
  merge_inner_part [[0;1];[2];[3;4];[5]] [4;3;6;1]%Z (repeat [] 4) (repeat 9 3)%Z 5 = Err OOB.
Proof.
  split; [vm_compute; reflexivity|]. split; [|vm_compute; reflexivity]. unfold greedy_runs. splits; try reflexivity. intros j Hj.
  destruct j as [|[|[|j]]]; [..|lia]; cbn [nth]; (split; [lia|split; [|vm_compute; lia || discriminate]]); intros m Hm.
  - destruct m as [|[|m]]; [vm_compute; reflexivity|vm_compute; reflexivity|lia].
  - replace m with 2 by lia. vm_compute. reflexivity.
  - replace m with 3 by lia. vm_compute. reflexivity.
Qed.
