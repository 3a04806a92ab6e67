(** Proofs about computeSchedule, part 1: one window. *)
From Verif Require Import Base Lib Lib2 Spec M_CC L_CC M_PostOrder M_Sched.
From Coq Require Import ZifyBool ZifyNat.

(** ** Gathering the nodes of a window *)

Lemma gather_nodes_wp n level_ptr level_set lb ub (Q : _ -> Prop) :
  lb <= ub -> ub < length level_ptr ->
  (forall l, lb <= l < ub -> level_ptr.[l] <= level_ptr.[S l]) ->
  level_ptr.[ub] <= length level_set -> level_ptr.[ub] - level_ptr.[lb] <= n ->
  (forall buf m, m = level_ptr.[ub] - level_ptr.[lb] -> length buf = n ->
     firstn m buf = slice level_set level_ptr.[lb] level_ptr.[ub] -> Q (buf, m)) ->
  wp (gather_nodes n level_ptr level_set lb ub) Q.
Proof.
  intros Hlu Hul Hmono Hset Hn HQ. unfold gather_nodes.
  assert (HM : forall i j, lb <= i -> i <= j -> j <= ub -> level_ptr.[i] <= level_ptr.[j]).
  { intros i j Hi Hij. induction Hij as [|j Hij IH]; intros Hj; [lia|].
    specialize (IH ltac:(lia)). specialize (Hmono j ltac:(lia)). lia. }
  apply (wp_for (fun ii st => let '(buf, c) := st in
    c = level_ptr.[ii] - level_ptr.[lb] /\ length buf = n /\
    forall k, k < c -> buf.[k] = level_set.[level_ptr.[lb] + k])); auto.
  - rewrite Nat.sub_diag. splits; auto; [apply repeat_length|intros; lia].
  - intros ii (buf & c) Hii (Hc & HL & HB). wp1. wp1; [lia|]. wp1. wp1; [lia|].
    pose proof (HM lb ii ltac:(lia) ltac:(lia) ltac:(lia)). pose proof (HM ii (S ii) ltac:(lia) ltac:(lia) ltac:(lia)).
    pose proof (HM (S ii) ub ltac:(lia) ltac:(lia) ltac:(lia)).
    apply (wp_for (fun j st => let '(buf, c) := st in
      c = j - level_ptr.[lb] /\ length buf = n /\
      forall k, k < c -> buf.[k] = level_set.[level_ptr.[lb] + k])); auto.
    intros j (buf' & c') Hj (Hc' & HL' & HB'). wp1. wp1; [lia|]. wp1. wp1; [lia|]. apply wp_ret.
    splits; [lia|now rewrite upd_length|]. intros k Hk. rewrite aget_upd by lia.
    destruct (Nat.eqb_spec k c') as [->|]; [f_equal; lia|]. apply HB'. lia.
  - intros (buf & c) (Hc & HL & HB). apply HQ; auto.
    pose proof (HM lb ub ltac:(lia) ltac:(lia) ltac:(lia)).
    rewrite firstn_slice. apply slice_ext; try lia. intros i Hi. apply HB. lia.
Qed.

(** ** Counting sort by label *)
Section Parts.
Variables (n : nat) (nodes lab : list nat).
Notation N := (length nodes).
Let f (i : nat) : nat := lab.[nodes.[i]].
Hypothesis ND : NoDup nodes.
Hypothesis NB : forall x, In x nodes -> x < n.
Hypothesis HLab : length lab = n.
Hypothesis HOut : forall x, x < n -> ~ In x nodes -> lab.[x] = n.
Hypothesis HIn : forall i, i < N -> lab.[nodes.[i]] < N.

Lemma N_le : N <= n.
Proof. apply (NoDup_bounded_length n nodes); auto. Qed.

Lemma label_count l : l < n -> length (filter (fun x => x =? l) lab) = cnt 0 N (fun i => f i =? l).
Proof.
  intros Hl. rewrite filter_length_list, HLab, cnt_filter, Nat.sub_0_r.
  assert (E1 : cnt 0 N (fun i => f i =? l) = length (filter (fun x => lab.[x] =? l) nodes)).
  { now rewrite filter_length_list. }
  rewrite E1. apply filter_same_length; auto.
  - apply seq_NoDup.
  - intros x Hx. apply Nat.eqb_eq in Hx. split; intros Hi.
    + apply in_seq in Hi. destruct (in_dec Nat.eq_dec x nodes) as [?|Hn]; auto.
      rewrite (HOut x ltac:(lia) Hn) in Hx. lia.
    + apply in_seq. specialize (NB x Hi). lia.
Qed.

Lemma count_labels_wp (Q : list nat -> Prop) :
  (forall c, length c = S n -> c.[0] = 0 -> (forall l, l < n -> c.[S l] = cnt 0 N (fun i => f i =? l)) -> Q c) ->
  wp (count_labels n lab) Q.
Proof.
  intros HQ. unfold count_labels.
  apply (wp_foreach (fun pre c => length c = S n /\ c.[0] = 0 /\
    forall l, l < n -> c.[S l] = length (filter (fun x => x =? l) pre))).
  - splits; [apply repeat_length|reflexivity|]. intros l Hl. rewrite aget_repeat by lia. reflexivity.
  - intros pre x post c El (HL & H0 & HC).
    assert (Hx : x < S n).
    { assert (Hi : In x lab) by (rewrite El; apply in_app_iff; right; now left).
      apply In_aget in Hi. destruct Hi as [y [Hy <-]].
      destruct (in_dec Nat.eq_dec y nodes) as [Hi|Hi]; [|rewrite HOut; auto; lia].
      apply In_aget in Hi. destruct Hi as [i [Hi <-]]. specialize (HIn i Hi). pose proof N_le. lia. }
    assert (HF : forall l, filter (fun x => x =? l) (pre ++ [x])
       = filter (fun x => x =? l) pre ++ if x =? l then [x] else []).
    { intros l. rewrite filter_app. simpl. now destruct (x =? l). }
    destruct (Nat.eqb_spec x n) as [->|Hn].
    + apply wp_ret. splits; auto. intros l Hl. rewrite HF.
      destruct (Nat.eqb_spec n l); [lia|]. rewrite app_nil_r. auto.
    + wp1. wp1; [lia|]. wp1; [lia|]. splits.
      * now rewrite upd_length.
      * rewrite aget_upd_ne by lia. auto.
      * intros l Hl. rewrite aget_upd by lia. rewrite HF, app_length.
        destruct (Nat.eqb_spec x l) as [->|Hxl].
        -- rewrite Nat.eqb_refl. rewrite HC by auto. simpl. lia.
        -- destruct (Nat.eqb_spec (S l) (S x)); [lia|]. rewrite HC by auto. simpl. lia.
  - intros c (HL & H0 & HC). apply HQ; auto. intros l Hl. rewrite HC by auto. now apply label_count.
Qed.

Lemma scan_counts_wp c (Q : list nat -> Prop) :
  length c = S n -> c.[0] = 0 -> (forall l, l < n -> c.[S l] = cnt 0 N (fun i => f i =? l)) ->
  (forall c', length c' = S n -> (forall l, l <= n -> c'.[l] = cbase N f l) -> Q c') ->
  wp (scan_counts n c) Q.
Proof.
  intros HL H0 HC HQ. unfold scan_counts.
  destruct (Nat.eq_dec n 0) as [En|En].
  - rewrite for_nil by lia. apply HQ; auto. intros l Hl. replace l with 0 by lia. now rewrite cbase_0.
  - apply (wp_for (fun i c => length c = S n /\ (forall l, l <= i -> c.[l] = cbase N f l) /\
      (forall l, i <= l -> l < n -> c.[S l] = cnt 0 N (fun i => f i =? l)))).
    + lia.
    + splits; auto. intros l Hl. destruct l as [|l]; [now rewrite cbase_0|].
      replace l with 0 by lia. rewrite HC, cbase_S, cbase_0 by lia. lia.
    + intros i d Hi (HL' & HA & HB). wp1. wp1; [lia|]. wp1. wp1; [lia|]. wp1; [lia|].
      rewrite upd_length. splits; auto.
      * intros l Hl. rewrite aget_upd by lia. destruct (Nat.eqb_spec l (S i)) as [->|]; [|apply HA; lia].
        rewrite HB, HA, cbase_S by lia. lia.
      * intros l Hl Hln. rewrite aget_upd by lia. destruct (Nat.eqb_spec (S l) (S i)); [lia|]. apply HB; lia.
    + intros d (HL' & HA & _). apply HQ; auto.
Qed.

Definition parts_ok (pp : list nat) : Prop :=
  length pp = S (cnt 0 n (fun l => cbase N f l <? cbase N f (S l))) /\ pp.[0] = 0 /\
  (forall q, S q < length pp -> pp.[q] < pp.[S q]) /\ pp.[length pp - 1] = N /\
  (forall l, l < n -> cbase N f l < cbase N f (S l) ->
     exists q, S q < length pp /\ pp.[q] = cbase N f l /\ pp.[S q] = cbase N f (S l)).

Lemma f_lt i : i < N -> f i < n.
Proof. intros Hi. specialize (HIn i Hi). pose proof N_le. unfold f. lia. Qed.

Lemma make_part_ptr_wp c (Q : list nat -> Prop) :
  length c = S n -> (forall l, l <= n -> c.[l] = cbase N f l) ->
  (forall pp, parts_ok pp -> Q pp) -> wp (make_part_ptr n c) Q.
Proof.
  intros HL HC HQ. unfold make_part_ptr.
  apply (wp_for (fun i pp => length pp = S (cnt 0 i (fun l => cbase N f l <? cbase N f (S l))) /\
    pp.[0] = 0 /\ (forall q, S q < length pp -> pp.[q] < pp.[S q]) /\ pp.[length pp - 1] = cbase N f i /\
    (forall l, l < i -> cbase N f l < cbase N f (S l) ->
     exists q, S q < length pp /\ pp.[q] = cbase N f l /\ pp.[S q] = cbase N f (S l)))).
  - lia.
  - splits; auto; [simpl; intros; lia|now rewrite cbase_0|intros; lia].
  - intros i pp Hi (H1 & H2 & H3 & H4 & H5). wp1. wp1; [lia|]. wp1. wp1; [lia|]. apply wp_ret.
    rewrite !HC by lia. rewrite cnt_S by lia.
    pose proof (cbase_mono N f i (S i) ltac:(lia)) as Hm.
    destruct (Nat.eqb_spec (cbase N f (S i)) (cbase N f i)) as [Eq|Ne].
    + destruct (Nat.ltb_spec (cbase N f i) (cbase N f (S i))); [lia|]. simpl b2n.
      splits; auto; try lia.
      intros l Hl Hlt. destruct (Nat.eq_dec l i) as [->|]; [lia|]. apply H5; auto. lia.
    + destruct (Nat.ltb_spec (cbase N f i) (cbase N f (S i))); [|lia]. simpl b2n.
      rewrite app_length. simpl length. assert (Hp : 0 < length pp) by lia. splits.
      * lia.
      * now rewrite aget_app1 by lia.
      * intros q Hq. destruct (Nat.eq_dec (S q) (length pp)) as [Eq|].
        -- rewrite aget_app1 by lia. rewrite Eq, aget_app_last.
           replace q with (length pp - 1) by lia. lia.
        -- rewrite !aget_app1 by lia. apply H3. lia.
      * replace (length pp + 1 - 1) with (length pp) by lia. now rewrite aget_app_last.
      * intros l Hl Hlt. destruct (Nat.eq_dec l i) as [->|].
        -- exists (length pp - 1). replace (S (length pp - 1)) with (length pp) by lia.
           rewrite aget_app_last. rewrite aget_app1 by lia. splits; auto; lia.
        -- destruct (H5 l ltac:(lia) Hlt) as (q & Hq & E1 & E2). exists q. splits; [lia| |].
           ++ now rewrite aget_app1 by lia.
           ++ now rewrite aget_app1 by lia.
  - intros pp (H1 & H2 & H3 & H4 & H5). apply HQ. unfold parts_ok. splits; auto.
    rewrite H4. apply cbase_all. intros i Hi. now apply f_lt.
Qed.

Lemma place_nodes_wp c (Q : list nat -> Prop) :
  length c = S n -> (forall l, l <= n -> c.[l] = cbase N f l) ->
  (forall np, length np = N -> (forall i, i < N -> np.[cpos N f i] = nodes.[i]) -> Q np) ->
  wp (place_nodes nodes lab c) Q.
Proof.
  intros HL HC HQ. unfold place_nodes. wp1.
  apply (wp_for (fun i st => let '(np, c) := st in length np = N /\ length c = S n /\
    (forall l, l <= n -> c.[l] = cbase N f l + cnt 0 i (fun j => f j =? l)) /\
    (forall j, j < i -> np.[cpos N f j] = nodes.[j]))).
  - lia.
  - splits; auto; [apply repeat_length| |intros; lia]. intros l Hl. rewrite HC by auto.
    unfold cnt. rewrite sum_r_nil by lia. lia.
  - intros i (np & d) Hi (H1 & H2 & H3 & H4).
    assert (Hx : nodes.[i] < n) by (apply NB; apply aget_In; lia).
    pose proof (f_lt i ltac:(lia)) as Hf.
    assert (Ec : d.[f i] = cpos N f i) by (unfold cpos; apply H3; lia).
    pose proof (cpos_lt N f i ltac:(lia)) as Hp.
    wp1. wp1; [lia|]. wp1. wp1; [lia|]. fold (f i). wp1. wp1; [lia|]. rewrite Ec.
    wp1. wp1; [lia|]. wp1. wp1; [lia|]. apply wp_ret. rewrite !upd_length. splits; auto.
    + intros l Hl. rewrite aget_upd by lia. rewrite cnt_S by lia.
      destruct (Nat.eqb_spec l (f i)) as [->|Hn].
      * rewrite Nat.eqb_refl. simpl. unfold cpos. lia.
      * rewrite H3 by auto. destruct (Nat.eqb_spec (f i) l); [congruence|]. simpl. lia.
    + intros j Hj. rewrite aget_upd by lia.
      destruct (Nat.eqb_spec (cpos N f j) (cpos N f i)) as [Eq|Hn].
      * apply cpos_inj in Eq; [now subst|lia|lia].
      * apply H4. assert (j <> i) by congruence. lia.
  - intros (np & d) (H1 & H2 & H3 & H4). apply wp_ret. apply HQ; auto.
Qed.

Lemma placed_perm np : length np = N -> (forall i, i < N -> np.[cpos N f i] = nodes.[i]) ->
  Permutation np nodes.
Proof.
  intros HL HP. symmetry. apply NoDup_Permutation_bis; auto; [lia|].
  intros x Hx. apply In_aget in Hx. destruct Hx as [i [Hi <-]]. rewrite <- HP by auto.
  apply aget_In. rewrite HL. now apply cpos_lt.
Qed.

End Parts.

(** ** What a window looks like *)

(** the nodes of a window, cut into parts *)
Definition win_base (nodes pp np : list nat) : Prop :=
  0 < length pp /\ pp.[0] = 0 /\ (forall q, S q < length pp -> pp.[q] <= pp.[S q]) /\
  pp.[length pp - 1] = length nodes /\ length np = length nodes /\ Permutation np nodes.

(** related nodes are in the same part *)
Definition win_same (R : nat -> nat -> Prop) (pp np : list nat) : Prop :=
  forall a b, a < length np -> b < length np -> R np.[a] np.[b] ->
    exists q, S q < length pp /\ pp.[q] <= a < pp.[S q] /\ pp.[q] <= b < pp.[S q].

(** edges go forward *)
Definition win_order (E : nat -> nat -> Prop) (np : list nat) : Prop :=
  forall a b, a < length np -> b < length np -> E np.[a] np.[b] -> a < b.

Section Window.
Variables (n k : nat) (DAG_ptr DAG_set level_ptr level_set n2l : list nat).
Notation E := (edge n DAG_ptr DAG_set).
Hypothesis W : wf_csc n DAG_ptr DAG_set.
Hypothesis LP : level_partition n k level_ptr level_set.
Hypothesis HLp : k < length level_ptr.
Hypothesis HLs : n <= length level_set.
Hypothesis HLn : n <= length n2l.
Hypothesis HN2L : forall l v, l < k -> in_level level_ptr level_set l v -> n2l.[v] = l.
Hypothesis HE : forall u v, E u v -> n2l.[u] < n2l.[v].

Lemma lptr_mono i j : i <= j -> j <= k -> level_ptr.[i] <= level_ptr.[j].
Proof. apply (mono_le (aget level_ptr) k). apply LP. Qed.

Lemma lptr_le i : i <= k -> level_ptr.[i] <= n.
Proof. intros Hi. pose proof (lptr_mono i k Hi ltac:(lia)). destruct LP as (_ & _ & Hk & _). lia. Qed.

Lemma pos_level i : i < n -> exists l, l < k /\ level_ptr.[l] <= i < level_ptr.[S l] /\ n2l.[level_set.[i]] = l.
Proof.
  intros Hi. destruct LP as (H0 & Hm & Hk & _).
  destruct (bucket_exists (aget level_ptr) k i) as (l & Hl & Hb); auto; try lia.
  exists l. split; [auto|split; [exact Hb|]]. apply HN2L; auto. exists i. auto.
Qed.

Lemma level_pos i lb ub : i < n -> lb <= ub -> ub <= k ->
  (lb <= n2l.[level_set.[i]] < ub <-> level_ptr.[lb] <= i < level_ptr.[ub]).
Proof.
  intros Hi Hlu Hu. destruct (pos_level i Hi) as (l & Hl & Hb & ->). split; intros H.
  - pose proof (lptr_mono lb l ltac:(lia) ltac:(lia)). pose proof (lptr_mono (S l) ub ltac:(lia) ltac:(lia)). lia.
  - split.
    + destruct (le_lt_dec lb l); auto. pose proof (lptr_mono (S l) lb ltac:(lia) ltac:(lia)). lia.
    + destruct (le_lt_dec ub l); auto. pose proof (lptr_mono ub l ltac:(lia) ltac:(lia)). lia.
Qed.

Lemma set_onto v : v < n -> exists i, i < n /\ level_set.[i] = v.
Proof. intros Hv. destruct LP as (_ & _ & _ & Hb & Hinj). now apply (inj_onto n (aget level_set)). Qed.

Definition win_nodes (lb ub : nat) : list nat := slice level_set level_ptr.[lb] level_ptr.[ub].

Lemma win_len lb ub : lb <= ub -> ub <= k -> length (win_nodes lb ub) = level_ptr.[ub] - level_ptr.[lb].
Proof.
  intros H1 H2. unfold win_nodes. pose proof (lptr_mono lb ub H1 H2). pose proof (lptr_le ub H2).
  apply slice_length; lia.
Qed.

Lemma win_in lb ub v : lb <= ub -> ub <= k -> v < n -> (In v (win_nodes lb ub) <-> lb <= n2l.[v] < ub).
Proof.
  intros H1 H2 Hv. unfold win_nodes. pose proof (lptr_mono lb ub H1 H2). pose proof (lptr_le ub H2).
  rewrite In_slice by lia. split.
  - intros (i & Hi & <-). apply level_pos; auto; lia.
  - intros Hn. destruct (set_onto v Hv) as (i & Hi & <-). exists i. split; auto. now apply level_pos.
Qed.

Lemma win_lt lb ub v : lb <= ub -> ub <= k -> In v (win_nodes lb ub) -> v < n.
Proof.
  intros H1 H2 Hv. unfold win_nodes in Hv. pose proof (lptr_mono lb ub H1 H2). pose proof (lptr_le ub H2).
  apply In_slice in Hv; try lia. destruct Hv as (i & Hi & <-). apply LP. lia.
Qed.

Lemma win_nodup lb ub : lb <= ub -> ub <= k -> NoDup (win_nodes lb ub).
Proof.
  intros H1 H2. pose proof (lptr_mono lb ub H1 H2). pose proof (lptr_le ub H2).
  apply NoDup_of_aget. rewrite win_len by auto. unfold win_nodes. intros i j Hi Hj Eq.
  rewrite !aget_slice in Eq by lia. destruct LP as (_ & _ & _ & _ & Hinj). apply Hinj in Eq; lia.
Qed.

Lemma win_topo lb ub i j : lb <= ub -> ub <= k -> i < length (win_nodes lb ub) -> j < length (win_nodes lb ub) ->
  E (win_nodes lb ub).[i] (win_nodes lb ub).[j] -> i < j.
Proof.
  intros H1 H2 Hi Hj He. rewrite win_len in Hi, Hj by auto.
  pose proof (lptr_mono lb ub H1 H2). pose proof (lptr_le ub H2).
  unfold win_nodes in He. rewrite !aget_slice in He by lia. apply HE in He.
  destruct (pos_level (level_ptr.[lb] + i) ltac:(lia)) as (li & Hli & Hbi & Ei).
  destruct (pos_level (level_ptr.[lb] + j) ltac:(lia)) as (lj & Hlj & Hbj & Ej).
  rewrite Ei, Ej in He. pose proof (lptr_mono (S li) lj ltac:(lia) ltac:(lia)). lia.
Qed.

Notation CC lb ub := (connected (edge_within E (win_nodes lb ub))).

Lemma sort_by_label_wp lb ub lab (Q : _ -> Prop) : lb <= ub -> ub <= k ->
  cc_labels n DAG_ptr DAG_set (win_nodes lb ub) (repeat n n) lab ->
  (forall pp np, win_base (win_nodes lb ub) pp np -> win_same (CC lb ub) pp np -> win_order E np ->
     n_components (edge_within E (win_nodes lb ub)) (win_nodes lb ub) (length pp - 1) -> Q (pp, np)) ->
  wp (sort_by_label n (win_nodes lb ub) lab) Q.
Proof.
  intros Hlu Huk HLB HQ. unfold sort_by_label.
  pose proof (lptr_mono lb ub Hlu Huk) as HM. pose proof (lptr_le ub Huk) as Hle.
  set (nodes := win_nodes lb ub) in *.
  assert (ND : NoDup nodes) by now apply win_nodup.
  assert (NB : forall x, In x nodes -> x < n) by (intros x; now apply win_lt).
  assert (HWin : forall v, v < n -> (In v nodes <-> lb <= n2l.[v] < ub)) by (intros v; now apply win_in).
  pose proof HLB as (L1 & L2 & L3). rewrite repeat_length in L1.
  assert (HOut : forall x, x < n -> ~ In x nodes -> lab.[x] = n).
  { intros x Hx Hn. rewrite L2 by auto. now rewrite aget_repeat. }
  assert (HIn : forall i, i < length nodes -> lab.[nodes.[i]] < length nodes).
  { intros i Hi. now destruct (L3 i Hi). }
  set (f := fun i => lab.[nodes.[i]]).
  wp1. apply (count_labels_wp n nodes lab); auto. intros c HLc H0 HC.
  wp1. apply scan_counts_wp with (nodes := nodes) (lab := lab) (c := c); auto. intros c' HLc' HC'.
  wp1. apply make_part_ptr_wp with (nodes := nodes) (lab := lab) (c := c'); auto. intros pp HPP.
  wp1. apply place_nodes_wp with (n := n) (nodes := nodes) (lab := lab) (c := c'); auto. intros np HLnp HP.
  fold f in HPP, HP. apply wp_ret.
  assert (HPerm : Permutation np nodes) by (apply placed_perm with (n := n) (lab := lab); auto).
  destruct HPP as (P1 & P2 & P3 & P4 & P5).
  fold f in P1, P5.
  assert (Hf : forall i, i < length nodes -> f i < n) by (intros i Hi; apply f_lt with (nodes := nodes) (lab := lab); auto).
  assert (Hpos : forall a, a < length np -> exists i, i < length nodes /\ cpos (length nodes) f i = a /\ np.[a] = nodes.[i]).
  { intros a Ha. rewrite HLnp in Ha. destruct (cpos_onto (length nodes) f a Ha) as (i & Hi & <-). exists i. auto. }
  assert (Hsame : forall i j, i < length nodes -> j < length nodes -> (f i = f j <-> CC lb ub nodes.[i] nodes.[j])).
  { intros i j Hi Hj.
    exact (cc_labels_same n DAG_ptr DAG_set lb ub n2l nodes NB HLn HWin _ lab nodes.[i] nodes.[j] HLB (aget_In _ _ Hi) (aget_In _ _ Hj)). }
  apply HQ.
  - unfold win_base. splits; auto; try lia. intros q Hq. specialize (P3 q Hq). lia.
  - intros a b Ha Hb HR. destruct (Hpos a Ha) as (i & Hi & <- & E1). destruct (Hpos b Hb) as (j & Hj & <- & E2).
    rewrite E1, E2 in HR. apply Hsame in HR; auto.
    pose proof (cpos_lo (length nodes) f i). pose proof (cpos_hi (length nodes) f i Hi).
    pose proof (cpos_lo (length nodes) f j). pose proof (cpos_hi (length nodes) f j Hj).
    destruct (P5 (f i) (Hf i Hi) ltac:(lia)) as (q & Hq & Eq1 & Eq2). exists q. rewrite Eq1, Eq2.
    rewrite <- HR in *. splits; auto; lia.
  - intros a b Ha Hb HR. destruct (Hpos a Ha) as (i & Hi & <- & E1). destruct (Hpos b Hb) as (j & Hj & <- & E2).
    rewrite E1, E2 in HR. apply cpos_mono; auto. right. split.
    + apply Hsame; auto. apply conn_edge. unfold edge_within. splits; auto; now apply aget_In.
    + exact (win_topo lb ub i j Hlu Huk Hi Hj HR).
  - exists (map (aget nodes) (filter (fun l => cbase (length nodes) f l <? cbase (length nodes) f (S l)) (seq 0 n))).
    assert (Hrep : forall l, In l (filter (fun l => cbase (length nodes) f l <? cbase (length nodes) f (S l)) (seq 0 n)) ->
              l < length nodes /\ f l = l).
    { intros l Hl. apply filter_In in Hl. destruct Hl as [_ Hl]. apply Nat.ltb_lt in Hl. rewrite cbase_S in Hl.
      destruct (cnt_pos 0 (length nodes) (fun i => f i =? l) ltac:(lia)) as (i & Hi & Ei). apply Nat.eqb_eq in Ei.
      assert (Hi' : i < length nodes) by lia.
      destruct (L3 i Hi') as (A1 & A2 & A3). fold (f i) in A1, A2, A3. rewrite Ei in *. split; auto.
      rewrite <- Ei at 2. symmetry. apply Hsame; auto. }
    splits.
    + rewrite map_length. rewrite P1. rewrite cnt_filter, Nat.sub_0_r. lia.
    + apply NoDup_of_aget. rewrite map_length. intros i j Hi Hj Eq. rewrite !aget_map in Eq by auto.
      pose proof (aget_In _ _ Hi) as Hi'. pose proof (aget_In _ _ Hj) as Hj'.
      apply Hrep in Hi'. apply Hrep in Hj'. apply NoDup_aget in Eq; auto; try lia.
      apply NoDup_aget in Eq; auto. apply NoDup_filter, seq_NoDup.
    + intros r Hr. apply in_map_iff in Hr. destruct Hr as (l & <- & Hl). apply Hrep in Hl. exact (aget_In nodes l (proj1 Hl)).
    + intros x Hx. change (In x nodes) in Hx. apply In_aget in Hx. destruct Hx as [i [Hi <-]]. destruct (L3 i Hi) as (A1 & A2 & A3).
      exists nodes.[f i]. split; [|exact A2]. apply in_map. apply filter_In. split.
      * apply in_seq. specialize (Hf i Hi). lia.
      * apply Nat.ltb_lt. rewrite cbase_S.
        pose proof (cnt_ge_one 0 (length nodes) (fun j => f j =? f i) i ltac:(lia) (Nat.eqb_refl _)). lia.
    + intros r r' Hr Hr' HR. apply in_map_iff in Hr. destruct Hr as (l & <- & Hl).
      apply in_map_iff in Hr'. destruct Hr' as (l' & <- & Hl'). apply Hrep in Hl. apply Hrep in Hl'.
      apply Hsame in HR; try lia. f_equal. lia.
Qed.

Lemma window_parts_wp lb ub (Q : _ -> Prop) : lb <= ub -> ub <= k ->
  (forall pp np, win_base (win_nodes lb ub) pp np -> win_same (CC lb ub) pp np -> win_order E np ->
     n_components (edge_within E (win_nodes lb ub)) (win_nodes lb ub) (length pp - 1) -> Q (pp, np)) ->
  wp (window_parts n DAG_ptr DAG_set level_ptr level_set n2l lb ub) Q.
Proof.
  intros Hlu Huk HQ. unfold window_parts.
  pose proof (lptr_mono lb ub Hlu Huk) as HM. pose proof (lptr_le ub Huk) as Hle.
  wp1. apply gather_nodes_wp; auto; try lia.
  { intros l Hl. apply lptr_mono; lia. }
  intros buf m Hm HLb ->. fold (win_nodes lb ub).
  assert (ND : NoDup (win_nodes lb ub)) by now apply win_nodup.
  assert (NB : forall x, In x (win_nodes lb ub) -> x < n) by (intros x; now apply win_lt).
  assert (HWin : forall v, v < n -> (In v (win_nodes lb ub) <-> lb <= n2l.[v] < ub)) by (intros v; now apply win_in).
  wp1. eapply wp_mono; [apply (parallel_cc_wp n DAG_ptr DAG_set lb ub n2l _ W ND NB HLn HWin);
                        rewrite repeat_length; auto|].
  intros lab HLB. apply sort_by_label_wp; auto.
Qed.

End Window.

(** ** Merging consecutive parts *)

Lemma merge_parts_wp T chunk pp (Q : list nat -> Prop) :
  0 < T -> T < length chunk -> 0 < length pp -> pp.[0] = 0 ->
  (forall q, S q < length pp -> pp.[q] <= pp.[S q]) ->
  (forall i, 1 <= i < T -> chunk.[i] <= chunk.[S i]) -> length pp - 1 <= chunk.[T] ->
  (forall m, length m = S T -> m.[0] = 0 -> (forall q, S q < length m -> m.[q] <= m.[S q]) ->
     m.[T] = pp.[length pp - 1] ->
     (forall q, S q < length pp -> exists i, i < T /\ m.[i] <= pp.[q] /\ pp.[S q] <= m.[S i]) -> Q m) ->
  wp (merge_parts T chunk pp) Q.
Proof.
  intros HT HLc Hpp H0 Hmono Hch Hlast HQ. unfold merge_parts.
  set (K := length pp - 1) in *.
  assert (HM : forall i j, i <= j -> j <= K -> pp.[i] <= pp.[j]).
  { apply (mono_le (aget pp) K). intros i Hi. apply Hmono. lia. }
  set (g := fun i => match i with 0 => 0 | S _ => min chunk.[i] K end).
  assert (Hg : forall i, i < T -> g i <= g (S i)).
  { intros [|i] Hi; simpl; [lia|]. specialize (Hch (S i) ltac:(lia)). lia. }
  assert (HgK : forall i, g i <= K) by (intros [|i]; simpl; lia).
  apply (wp_for (fun i m => length m = S T /\ forall j, j <= i -> m.[j] = pp.[g j])).
  - lia.
  - split; [apply repeat_length|]. intros j Hj. replace j with 0 by lia. unfold g. rewrite H0. reflexivity.
  - intros i m Hi [HL HE]. wp1. wp1; [lia|]. wp1. wp1; [lia|]. wp1; [lia|]. rewrite upd_length. split; auto.
    intros j Hj. rewrite aget_upd by lia. destruct (Nat.eqb_spec j (S i)) as [->|]; [reflexivity|]. apply HE. lia.
  - intros m [HL HE]. assert (HgT : g T = K) by (destruct T; [lia|]; simpl; lia). apply HQ; auto.
    + rewrite HE by lia. simpl. auto.
    + intros q Hq. rewrite !HE by lia. apply HM; auto. apply Hg. lia.
    + rewrite HE by lia. now rewrite HgT.
    + intros q Hq. destruct (bucket_exists g T q) as (i & Hi & Hb); auto; try (simpl; lia).
      exists i. rewrite !HE by lia. splits; auto; apply HM; try lia. apply HgK.
Qed.

(** ** Sorting inside parts *)

Lemma slice_app_mid {A} `{Dflt A} (x y z : list A) : slice (x ++ y ++ z) (length x) (length x + length y) = y.
Proof.
  unfold slice. rewrite skipn_app, Nat.sub_diag, skipn_all. simpl.
  replace (length x + length y - length x) with (length y) by lia.
  rewrite firstn_app, Nat.sub_diag, firstn_all. simpl. apply app_nil_r.
Qed.

Lemma sort_range_wp l a b (Q : list nat -> Prop) : a <= b -> b <= length l ->
  (forall l', length l' = length l -> (forall i, i < a \/ b <= i -> l'.[i] = l.[i]) ->
     slice l' a b = isort (slice l a b) -> Permutation l' l -> Q l') ->
  wp (sort_range l a b) Q.
Proof.
  intros Ha Hb HQ. unfold sort_range.
  destruct (Nat.leb_spec a b); [|lia]. destruct (Nat.leb_spec b (length l)); [|lia]. simpl.
  assert (La : length (firstn a l) = a) by (rewrite firstn_length; lia).
  assert (Ls : length (isort (slice l a b)) = b - a) by (rewrite isort_length, slice_length; lia).
  assert (El : l = firstn a l ++ slice l a b ++ skipn b l).
  { unfold slice. rewrite <- (firstn_skipn a l) at 1. f_equal.
    rewrite <- (firstn_skipn (b - a) (skipn a l)) at 1. f_equal. rewrite skipn_skipn'. f_equal. lia. }
  apply HQ.
  - rewrite !app_length, La, Ls, skipn_length. lia.
  - intros i [Hi|Hi].
    + rewrite aget_app1 by lia. apply aget_firstn. lia.
    + rewrite aget_app2 by lia. rewrite aget_app2 by lia. rewrite aget_skipn. f_equal. lia.
  - pose proof (slice_app_mid (firstn a l) (isort (slice l a b)) (skipn b l)) as H1.
    rewrite La, Ls in H1. now replace (a + (b - a)) with b in H1 by lia.
  - rewrite El at 4. apply Permutation_app_head. apply Permutation_app_tail. symmetry. apply isort_perm.
Qed.

(** the parts of [np'] are rearrangements of the parts of [np], sorted by [key] *)
Definition resorted (key : nat -> nat) (pp np np' : list nat) : Prop :=
  length np' = length np /\ Permutation np' np /\
  (forall q, S q < length pp -> Permutation (slice np' pp.[q] pp.[S q]) (slice np pp.[q] pp.[S q])) /\
  (forall q, S q < length pp -> sorted_le (map key (slice np' pp.[q] pp.[S q]))).

Lemma win_resort_same (E : nat -> nat -> Prop) R nodes pp np np' key :
  NoDup nodes -> win_base nodes pp np -> win_same R pp np -> (forall u v, E u v -> In u nodes -> In v nodes -> R u v) ->
  resorted key pp np np' ->
  win_base nodes pp np' /\ win_same E pp np' /\
  ((forall u v, E u v -> In u nodes -> In v nodes -> key u < key v) -> win_order E np').
Proof.
  intros ND (B1 & B2 & B3 & B4 & B5 & B6) HS HR (S1 & S2 & S3 & S4).
  assert (ND' : NoDup np') by (eapply Permutation_NoDup; [symmetry; eapply Permutation_trans; eauto|auto]).
  assert (HMono : forall i j, i <= j -> j <= length pp - 1 -> pp.[i] <= pp.[j]).
  { apply (mono_le (aget pp)). intros i Hi. apply B3. lia. }
  assert (Hin : forall a, a < length np' -> In np'.[a] nodes).
  { intros a Ha. eapply Permutation_in; [exact B6|]. eapply Permutation_in; [exact S2|]. now apply aget_In. }
  assert (Hsame : win_same E pp np').
  { intros a b Ha Hb He.
    pose proof (aget_In np' a Ha) as Ia. pose proof (aget_In np' b Hb) as Ib.
    pose proof (HR _ _ He (Hin a Ha) (Hin b Hb)) as HRab.
    apply (Permutation_in _ S2) in Ia. apply (Permutation_in _ S2) in Ib.
    apply In_aget in Ia. destruct Ia as [a0 [Ha0 Ea]]. apply In_aget in Ib. destruct Ib as [b0 [Hb0 Eb]].
    rewrite <- Ea, <- Eb in HRab. destruct (HS a0 b0 Ha0 Hb0 HRab) as (q & Hq & Hqa & Hqb).
    pose proof (HMono (S q) (length pp - 1) ltac:(lia) ltac:(lia)).
    exists q. assert (G : forall c c0, c < length np' -> np.[c0] = np'.[c] -> pp.[q] <= c0 < pp.[S q] -> pp.[q] <= c < pp.[S q]).
    { intros c c0 Hc Ec Hc0. assert (Hi : In np'.[c] (slice np' pp.[q] pp.[S q])).
      { eapply Permutation_in; [symmetry; apply S3; auto|]. apply In_slice; [lia|lia|]. exists c0. auto. }
      apply In_slice in Hi; [|lia|lia]. destruct Hi as (c1 & Hc1 & E1).
      apply NoDup_aget in E1; auto; lia. }
    splits; auto; eapply G; eauto. }
  splits; auto.
  - unfold win_base. splits; auto; [lia|]. eapply Permutation_trans; eauto.
  - intros HK a b Ha Hb He. destruct (Hsame a b Ha Hb He) as (q & Hq & Hqa & Hqb).
    pose proof (HK _ _ He (Hin a Ha) (Hin b Hb)) as Hk.
    destruct (le_lt_dec b a) as [Hba|]; auto. exfalso.
    pose proof (HMono (S q) (length pp - 1) ltac:(lia) ltac:(lia)).
    specialize (S4 q Hq). unfold sorted_le in S4.
    assert (HL : length (map key (slice np' pp.[q] pp.[S q])) = pp.[S q] - pp.[q]).
    { rewrite map_length, slice_length; lia. }
    destruct (Nat.eq_dec a b) as [->|Hn]; [lia|].
    specialize (S4 (b - pp.[q]) (a - pp.[q]) ltac:(lia) ltac:(lia)).
    rewrite map_length in HL. rewrite !aget_map in S4 by lia. rewrite !aget_slice in S4 by lia.
    replace (pp.[q] + (b - pp.[q])) with b in S4 by lia. replace (pp.[q] + (a - pp.[q])) with a in S4 by lia. lia.
Qed.

Lemma win_resort (E : nat -> nat -> Prop) R nodes pp np np' key :
  NoDup nodes -> win_base nodes pp np -> win_same R pp np -> (forall u v, E u v -> In u nodes -> In v nodes -> R u v) ->
  (forall u v, E u v -> In u nodes -> In v nodes -> key u < key v) -> resorted key pp np np' ->
  win_base nodes pp np' /\ win_same E pp np' /\ win_order E np'.
Proof.
  intros ND B HS HR HK RS. destruct (win_resort_same E R nodes pp np np' key ND B HS HR RS) as (X1 & X2 & X3). auto.
Qed.

Lemma sort_ids_wp pp np (Q : list nat -> Prop) :
  0 < length pp -> (forall q, S q < length pp -> pp.[q] <= pp.[S q]) -> pp.[length pp - 1] <= length np ->
  (forall np', resorted (fun x => x) pp np np' -> Q np') ->
  wp (sort_ids pp np) Q.
Proof.
  intros Hp Hm HL HQ. unfold sort_ids.
  assert (HM : forall i j, i <= j -> j <= length pp - 1 -> pp.[i] <= pp.[j]).
  { apply (mono_le (aget pp)). intros i Hi. apply Hm. lia. }
  apply (wp_for (fun i np' => length np' = length np /\ Permutation np' np /\
    (forall q, q < i -> Permutation (slice np' pp.[q] pp.[S q]) (slice np pp.[q] pp.[S q]) /\
                        sorted_le (slice np' pp.[q] pp.[S q])) /\
    (forall k, pp.[i] <= k -> np'.[k] = np.[k]))).
  - lia.
  - splits; auto. intros; lia.
  - intros i np' Hi (H1 & H2 & H3 & H4). wp1. wp1; [lia|]. wp1. wp1; [lia|].
    pose proof (HM i (S i) ltac:(lia) ltac:(lia)). pose proof (HM (S i) (length pp - 1) ltac:(lia) ltac:(lia)).
    apply sort_range_wp; try lia. intros l' L1 L2 L3 L4. splits.
    + lia.
    + eapply Permutation_trans; eauto.
    + intros q Hq. destruct (Nat.eq_dec q i) as [->|Hn].
      * rewrite L3. split; [|apply isort_sorted]. eapply Permutation_trans; [symmetry; apply isort_perm|].
        rewrite (slice_ext np' np pp.[i] pp.[S i] pp.[i] pp.[S i]); auto; try lia. intros k Hk. apply H4. lia.
      * pose proof (HM (S q) i ltac:(lia) ltac:(lia)). pose proof (HM q (S q) ltac:(lia) ltac:(lia)).
        rewrite (slice_ext l' np' pp.[q] pp.[S q] pp.[q] pp.[S q]); auto; try lia; [apply H3; lia|].
        intros k Hk. apply L2. lia.
    + intros k Hk. rewrite L2 by lia. apply H4. lia.
  - intros np' (H1 & H2 & H3 & H4). apply HQ. unfold resorted. splits; auto.
    + intros q Hq. apply H3. lia.
    + intros q Hq. rewrite map_id. apply H3. lia.
Qed.

Lemma sort_post_wp n pp po inv buf np (Q : _ -> Prop) :
  0 < length pp -> (forall q, S q < length pp -> pp.[q] <= pp.[S q]) -> pp.[length pp - 1] <= length np ->
  length np <= n -> length buf = n -> length po = n -> length inv = n ->
  (forall x, In x np -> x < n) -> (forall x, x < n -> inv.[x] < n) ->
  (forall x, x < n -> po.[inv.[x]] = x) -> (forall i, i < n -> inv.[po.[i]] = i) ->
  (forall buf' np', length buf' = n -> resorted (aget inv) pp np np' -> Q (buf', np')) ->
  wp (sort_post pp po inv buf np) Q.
Proof.
  intros Hp Hm HL Hnn HLb HLpo HLi HB Hinv Hpi Hip HQ. unfold sort_post.
  assert (HM : forall i j, i <= j -> j <= length pp - 1 -> pp.[i] <= pp.[j]).
  { apply (mono_le (aget pp)). intros i Hi. apply Hm. lia. }
  apply (wp_for (fun i st => let '(buf, np') := st in length buf = n /\ length np' = length np /\ Permutation np' np /\
    (forall q, q < i -> Permutation (slice np' pp.[q] pp.[S q]) (slice np pp.[q] pp.[S q]) /\
                        sorted_le (map (aget inv) (slice np' pp.[q] pp.[S q]))) /\
    (forall k, pp.[i] <= k -> np'.[k] = np.[k]))).
  - lia.
  - splits; auto. intros; lia.
  - intros i (b0 & np') Hi (H0 & H1 & H2 & H3 & H4). wp1. wp1; [lia|]. wp1. wp1; [lia|].
    pose proof (HM i (S i) ltac:(lia) ltac:(lia)). pose proof (HM (S i) (length pp - 1) ltac:(lia) ltac:(lia)).
    set (a := pp.[i]) in *. set (b := pp.[S i]) in *.
    assert (HB' : forall j, j < length np' -> np'.[j] < n).
    { intros j Hj. apply HB. eapply Permutation_in; [exact H2|]. now apply aget_In. }
    wp1. apply (wp_for (fun j st => let '(bf, c) := st in c = j - a /\ length bf = n /\
                   forall t, t < c -> bf.[t] = inv.[np'.[a + t]])); auto.
    { splits; auto; [lia|]. intros; lia. }
    { intros j (bf & c) Hj (Hc & HLf & HF). specialize (HB' j ltac:(lia)) as Hx.
      wp1. wp1; [lia|]. wp1. wp1; [lia|]. wp1. wp1; [lia|]. apply wp_ret.
      rewrite upd_length. splits; auto; [lia|]. intros t Ht. rewrite aget_upd by lia.
      destruct (Nat.eqb_spec t c) as [->|]; [do 2 f_equal; lia|]. apply HF. lia. }
    intros (bf & c) (Hc & HLf & HF).
    wp1. apply sort_range_wp; try lia. intros bf2 L1 L2 L3 L4.
    set (ks := isort (map (aget inv) (slice np' a b))).
    assert (Eks : slice bf2 0 c = ks).
    { rewrite L3. unfold ks. f_equal. apply list_ext.
      - rewrite map_length, !slice_length; lia.
      - intros t Ht. rewrite slice_length in Ht by lia. rewrite aget_map by (rewrite slice_length; lia).
        rewrite !aget_slice by lia. simpl. apply HF. lia. }
    assert (Lks : length ks = b - a) by (unfold ks; rewrite isort_length, map_length, slice_length; lia).
    assert (Hks : forall t, t < b - a -> bf2.[t] = ks.[t]).
    { intros t Ht. rewrite <- Eks. rewrite aget_slice by lia. reflexivity. }
    assert (Hkn : forall t, t < b - a -> ks.[t] < n).
    { intros t Ht. assert (Hi' : In ks.[t] ks) by (apply aget_In; lia). unfold ks in Hi' at 2.
      apply (proj1 (isort_In _ _)) in Hi'. apply in_map_iff in Hi'. destruct Hi' as (x & <- & Hx). apply Hinv.
      apply In_slice in Hx; [|lia|lia]. destruct Hx as (j & Hj & <-). apply HB'. lia. }
    wp1. apply (wp_for (fun j st => let '(np2, c2) := st in c2 = j - a /\ length np2 = length np' /\
          (forall t, t < a \/ j <= t -> np2.[t] = np'.[t]) /\
          (forall t, a <= t < j -> np2.[t] = po.[ks.[t - a]]))); auto.
    { splits; auto; [lia|]. intros; lia. }
    { intros j (np2 & c2) Hj (G1 & G2 & G3 & G4). wp1. wp1; [lia|]. rewrite Hks by lia.
      specialize (Hkn c2 ltac:(lia)) as Hk2. wp1. wp1; [lia|]. wp1. wp1; [lia|]. apply wp_ret.
      rewrite upd_length. splits; auto; try lia.
      - intros t Ht. rewrite aget_upd_ne by lia. apply G3. lia.
      - intros t Ht. rewrite aget_upd by lia. destruct (Nat.eqb_spec t j) as [->|]; [now subst c2|]. apply G4. lia. }
    intros (np2 & c2) (G1 & G2 & G3 & G4). apply wp_ret.
    assert (Esl : slice np2 a b = map (aget po) ks).
    { apply list_ext.
      - rewrite map_length, slice_length; lia.
      - intros t Ht. rewrite slice_length in Ht by lia. rewrite aget_map by lia. rewrite aget_slice by lia.
        rewrite G4 by lia. do 2 f_equal. lia. }
    assert (Psl : Permutation (slice np2 a b) (slice np' a b)).
    { rewrite Esl. unfold ks.
      eapply Permutation_trans; [apply Permutation_map; symmetry; apply isort_perm|]. rewrite map_map.
      erewrite map_ext_in; [rewrite map_id; reflexivity|]. intros x Hx. cbv beta. apply Hpi.
      apply In_slice in Hx; [|lia|lia]. destruct Hx as (j & Hj & <-). apply HB'. lia. }
    assert (Ssl : sorted_le (map (aget inv) (slice np2 a b))).
    { rewrite Esl, map_map. erewrite map_ext_in; [rewrite map_id; apply isort_sorted|].
      intros x Hx. cbv beta. apply Hip. apply In_aget in Hx. destruct Hx as [t [Ht <-]]. apply Hkn. lia. }
    splits; auto; try lia.
    + (* whole permutation *)
      eapply Permutation_trans; [|exact H2].
      assert (D : forall l : list nat, length l = length np -> l = slice l 0 a ++ slice l a b ++ slice l b (length np)).
      { intros l Hl. rewrite <- slice_app by lia. rewrite <- slice_app by lia. rewrite <- Hl. now rewrite slice_full. }
      rewrite (D np2), (D np') by lia.
      rewrite (slice_ext np2 np' 0 a 0 a) by (try lia; intros t Ht; apply G3; lia).
      rewrite (slice_ext np2 np' b (length np) b (length np)) by (try lia; intros t Ht; apply G3; lia).
      apply Permutation_app_head. apply Permutation_app_tail. exact Psl.
    + intros q Hq. destruct (Nat.eq_dec q i) as [->|Hn].
      * fold a b. split; auto. eapply Permutation_trans; [exact Psl|].
        rewrite (slice_ext np' np a b a b); auto; try lia. intros k Hk. apply H4. lia.
      * pose proof (HM (S q) i ltac:(lia) ltac:(lia)). pose proof (HM q (S q) ltac:(lia) ltac:(lia)). fold a in H5.
        rewrite (slice_ext np2 np' pp.[q] pp.[S q] pp.[q] pp.[S q]); auto; try lia; [apply H3; lia|].
        intros k Hk. apply G3. lia.
    + intros k Hk. rewrite G3 by (fold b in Hk; lia). apply H4. fold a. fold b in Hk. lia.
  - intros (b' & np') (H0 & H1 & H2 & H3 & H4). apply HQ; auto. unfold resorted. splits; auto.
    + intros q Hq. apply H3. lia.
    + intros q Hq. apply H3. lia.
Qed.
