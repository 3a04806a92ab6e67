(** Properties of the tree depths, heights and subtree costs (C66, C67). *)
From Coq Require Import ZifyBool ZifyNat.
From Verif Require Import Base Lib Lib2 Lib3 Spec Check M_Tree P_Tree L_Post2 P_Post L_Group4.

(** * Specification *)

(** the depth of a node: the number of edges up to its root or, with weights, the weight of the
    nodes on the way, both ends included *)
Inductive depth_of (n : nat) (tree : list Z) (wt : option (list nat)) : nat -> nat -> Prop :=
| depth_root r : tree.[r] = (-1)%Z -> depth_of n tree wt r (match wt with None => 0 | Some w => w.[r] end)
| depth_step u p d : tree.[u] = Z.of_nat p -> p < n -> depth_of n tree wt p d ->
    depth_of n tree wt u ((match wt with None => 1 | Some w => w.[u] end) + d).

(** [h] is the largest depth *)
Definition is_height (n : nat) (tree : list Z) (wt : option (list nat)) (h : nat) : Prop :=
  (forall u d, u < n -> depth_of n tree wt u d -> d <= h) /\ (h = 0 \/ exists u, u < n /\ depth_of n tree wt u h).

(** a forest over [n] nodes *)
Definition forest (n : nat) (tree : list Z) : Prop :=
  n <= length tree /\ (forall u, u < n -> (-1 <= tree.[u] < Z.of_nat n)%Z) /\ forall u, u < n -> rooted n tree u.

Definition weights_ok (n : nat) (wt : option (list nat)) : Prop := forall w, wt = Some w -> n <= length w.

Section Height.
Variables (n : nat) (tree : list Z) (wt : option (list nat)).
Hypothesis FO : forest n tree.
Hypothesis WO : weights_ok n wt.

Definition own (u : nat) : nat := match wt with None => 0 | Some w => w.[u] end.
Definition up (u : nat) : nat := match wt with None => 1 | Some w => w.[u] end.

Lemma depth_fun u d : depth_of n tree wt u d -> forall d', depth_of n tree wt u d' -> d = d'.
Proof.
  induction 1 as [r Hr|u p d Hu Hp Hd IH]; intros d' H; inversion H as [r' Hr'|u' p' e Hu' Hp' He]; subst; auto; try lia.
  f_equal. apply IH. replace p with p' by lia. auto.
Qed.

Lemma depth_exists u : u < n -> exists d, depth_of n tree wt u d.
Proof.
  intros Hu. destruct FO as (_ & _ & HR). destruct (HR u Hu) as (r & Hd & Er). clear Hu. induction Hd as [u|u p v H1 H2 H3 IH].
  - eexists. now constructor.
  - destruct (IH Er) as [d Hd']. eexists. eapply depth_step; eauto.
Qed.

Lemma dep_exists u : u < n -> exists d, dep n tree u d.
Proof. intros Hu. apply rooted_dep. now apply FO. Qed.

Lemma child_parent u p : u < n -> tree.[u] = Z.of_nat p -> p < n.
Proof. intros Hu E. destruct FO as (_ & HB & _). specialize (HB u Hu). lia. Qed.

Lemma get_node_depth_wp u d : u < n -> depth_of n tree wt u d -> get_node_depth n tree wt u = Ok d.
Proof.
  intros Hu Hd. destruct FO as (TL & HB & _). unfold get_node_depth.
  assert (E0 : (match wt with None => Ok 0 | Some w => rd w u end) = Ok (own u)).
  { unfold own. clear Hd. destruct wt as [w|]; auto. apply rd_ok. specialize (WO w eq_refl). lia. }
  rewrite E0. cbn [bind].
  assert (G : forall m fuel v level e, v < n -> dep n tree v m -> m < fuel -> depth_of n tree wt v e ->
     exists x, while_ fuel (fun '(node, level) => t <- rd tree node ;; Ok (0 <=? t)%Z)
         (fun '(node, level) => t <- rd tree node ;; let node := Z.to_nat t in
            d <- match wt with None => Ok 1 | Some w => rd w node end ;; Ok (node, level + d)) (v, level) = Ok (x, level + e - own v)).
  { induction m as [|m IH]; intros fuel v level e Hv Hm Hf He; (destruct fuel as [|fuel]; [lia|]); cbn [while_]; rewrite rd_ok by lia; cbn [bind].
    - inversion Hm as [r Hr|]; subst. rewrite Hr. exists v. cbn. inversion He as [r' Hr'|u' p' e' Hu' Hp' He']; subst; [|lia]. fold (own v). do 2 f_equal. lia.
    - inversion Hm as [|u' p m' Hu' Hp Hm']; subst. rewrite Hu'. destruct (Z.leb_spec 0 (Z.of_nat p)); [|lia]. cbn [bind]. rewrite Nat2Z.id.
      assert (E1 : (match wt with None => Ok 1 | Some w => rd w p end) = Ok (match wt with None => 1 | Some w => w.[p] end)).
      { clear Hd He IH. destruct wt as [w|]; auto. apply rd_ok. specialize (WO w eq_refl). lia. }
      rewrite E1. cbn [bind]. inversion He as [r' Hr'|u' p' e' Hu'' Hp' He']; subst; [lia|]. assert (p' = p) by lia. subst p'.
      destruct (IH fuel p (level + match wt with None => 1 | Some w => w.[p] end) e' Hp Hm' ltac:(lia) He') as [x Ex]. exists x. etransitivity; [exact Ex|]. do 2 f_equal.
      unfold own. destruct wt as [w|]; lia. }
  destruct (dep_exists u Hu) as [m Hm]. pose proof (dep_lt n tree u m Hu Hm).
  destruct (G m (S n) u (own u) d Hu Hm ltac:(lia) Hd) as [x Ex]. etransitivity; [exact (f_equal (fun z => r <- z ;; Ok (snd r)) Ex)|]. cbn [bind snd]. f_equal. lia.
Qed.

Lemma bruteforce_wp : exists h, get_tree_height_bruteforce n tree wt = Ok h /\ is_height n tree wt h.
Proof.
  assert (G : wp (get_tree_height_bruteforce n tree wt) (is_height n tree wt)).
  { unfold get_tree_height_bruteforce. apply (wp_for (fun i h => (forall u d, u < i -> depth_of n tree wt u d -> d <= h) /\ (h = 0 \/ exists u, u < n /\ depth_of n tree wt u h))).
    - lia.
    - split; auto. lia.
    - intros i h Hi [I1 I2]. destruct (depth_exists i ltac:(lia)) as [d Hd]. wp1. rewrite (get_node_depth_wp i d) by (auto; lia). wp1. wp1.
      destruct (Nat.ltb_spec h d); split.
      + intros u d' Hu Hd'. destruct (Nat.eq_dec u i) as [->|]; [rewrite (depth_fun _ _ Hd _ Hd'); lia|]. specialize (I1 u d' ltac:(lia) Hd'). lia.
      + right. exists i. split; auto. lia.
      + intros u d' Hu Hd'. destruct (Nat.eq_dec u i) as [->|]; [rewrite <- (depth_fun _ _ Hd _ Hd'); lia|]. apply (I1 u); auto. lia.
      + auto.
    - intros h H. exact H. }
  destruct (get_tree_height_bruteforce n tree wt) as [h|]; [|contradiction]. eauto.
Qed.

(** a deepest node can be chosen among the leaves *)
Lemma deeper_leaf m : forall u d k, u < n -> dep n tree u k -> n - k <= m -> depth_of n tree wt u d ->
  exists v e, v < n /\ children n tree v = [] /\ depth_of n tree wt v e /\ d <= e.
Proof.
  induction m as [|m IH]; intros u d k Hu Hk Hm Hd; pose proof (dep_lt n tree u k Hu Hk); [lia|].
  destruct (children n tree u) as [|c l] eqn:Ec; [exists u, d; auto|].
  assert (Hc : In c (children n tree u)) by (rewrite Ec; now left). unfold children in Hc. apply filter_In in Hc. destruct Hc as [H1 H2]. apply in_seq in H1. apply Z.eqb_eq in H2.
  destruct (IH c (up c + d) (S k)) as (v & e & A & B & C & D); auto; try lia.
  - econstructor; eauto.
  - unfold up. eapply depth_step; eauto.
  - exists v, e. splits; auto. lia.
Qed.

Variable nChild : list nat.
Hypothesis NC : n <= length nChild /\ forall u, u < n -> nChild.[u] = length (children n tree u).

Lemma leaf_iff u : u < n -> (nChild.[u] =? 0) = match children n tree u with [] => true | _ => false end.
Proof. intros Hu. destruct NC as [_ NC2]. rewrite NC2 by auto. destruct (children n tree u); reflexivity. Qed.

Lemma leaves_height h : (forall u d, u < n -> children n tree u = [] -> depth_of n tree wt u d -> d <= h) -> (h = 0 \/ exists u, u < n /\ depth_of n tree wt u h) -> is_height n tree wt h.
Proof.
  intros H1 H2. split; auto. intros u d Hu Hd. destruct (dep_exists u Hu) as [k Hk].
  destruct (deeper_leaf (n - k) u d k Hu Hk (le_n _) Hd) as (v & e & A & B & C & D). specialize (H1 v e A B C). lia.
Qed.

Lemma leaves_wp : exists h, get_tree_height n tree nChild wt = Ok h /\ is_height n tree wt h.
Proof.
  assert (G : wp (get_tree_height n tree nChild wt) (is_height n tree wt)).
  { unfold get_tree_height. apply (wp_for (fun i h => (forall u d, u < i -> children n tree u = [] -> depth_of n tree wt u d -> d <= h) /\ (h = 0 \/ exists u, u < n /\ depth_of n tree wt u h))).
    - lia.
    - split; auto. lia.
    - intros i h Hi [I1 I2]. wp1. destruct NC as [NC1 _]. wp1; [lia|]. rewrite leaf_iff by lia. destruct (children n tree i) as [|c l] eqn:Ec.
      + destruct (depth_exists i ltac:(lia)) as [d Hd]. wp1. rewrite (get_node_depth_wp i d) by (auto; lia). wp1. wp1.
        destruct (Nat.ltb_spec h d); split.
        * intros u d' Hu Hc Hd'. destruct (Nat.eq_dec u i) as [->|]; [rewrite (depth_fun _ _ Hd _ Hd'); lia|]. specialize (I1 u d' ltac:(lia) Hc Hd'). lia.
        * right. exists i. split; auto. lia.
        * intros u d' Hu Hc Hd'. destruct (Nat.eq_dec u i) as [->|]; [rewrite <- (depth_fun _ _ Hd _ Hd'); lia|]. apply (I1 u); auto. lia.
        * auto.
      + wp1. split; auto. intros u d' Hu Hc Hd'. destruct (Nat.eq_dec u i) as [->|]; [congruence|]. apply (I1 u); auto. lia.
    - intros h [H1 H2]. apply leaves_height; auto. }
  destruct (get_tree_height n tree nChild wt) as [h|]; [|contradiction]. eauto.
Qed.
End Height.

(** ** get_tree_height_efficient, unweighted *)

Section Efficient.
Variables (n : nat) (tree : list Z) (nChild : list nat).
Hypothesis FO : forest n tree.
Hypothesis NC : n <= length nChild /\ forall u, u < n -> nChild.[u] = length (children n tree u).

Lemma depth_dep u d : depth_of n tree None u d <-> dep n tree u d.
Proof.
  split; intros H.
  - remember None as wt. induction H as [r Hr|u p d H1 H2 H3 IH]; subst; [now constructor|]. econstructor; eauto.
  - induction H as [r Hr|u p d H1 H2 H3 IH]; [apply (depth_root n tree None r Hr)|]. apply (depth_step n tree None u p d); auto.
Qed.

(** no touched node promises more than [h] *)
Definition touched (touch : list nat) (h : nat) : Prop :=
  length touch = n /\ forall v d, v < n -> dep n tree v d -> touch.[v] = 0 \/ touch.[v] + d <= h.

Lemma walk m : forall fuel v level touch h leafd, v < n -> dep n tree v m -> m < fuel -> level + m = leafd -> touched touch (Nat.max h leafd) ->
  wp (while_ fuel
        (fun '(stop, node, level, touch) => t <- rd tree node ;; Ok (negb stop && (0 <=? t)%Z))
        (fun '(_, node, level, touch) =>
           t <- rd tree node ;; let node := Z.to_nat t in
           d <- match None with None => Ok 1 | Some w => rd w node end ;;
           let level := level + d in
           o <- rd touch node ;;
           if level <? o then Ok (true, node, level, touch)
           else touch <- wr touch node level ;; Ok (false, node, level, touch))
        (false, v, level, touch))
     (fun q => let '(_, _, level, touch) := q in level <= leafd /\ (leafd <= h \/ level = leafd) /\ touched touch (Nat.max h leafd)).
Proof.
  destruct FO as (TL & HB & _). induction m as [|m IH]; intros fuel v level touch h leafd Hv Hd Hf Hl HT; (destruct fuel as [|fuel]; [lia|]); cbn [while_].
  - inversion Hd as [r Hr|]; subst. wp1. rewrite rd_ok by lia. cbn [bind]. wp1. rewrite Hr. cbn. splits; auto; lia.
  - inversion Hd as [|u p m' Hu Hp Hm]; subst. wp1. rewrite rd_ok by lia. cbn [bind]. wp1. rewrite Hu. destruct (Z.leb_spec 0 (Z.of_nat p)); [|lia]. cbn [negb andb]. wp1. rewrite Nat2Z.id.
    cbn [bind]. destruct HT as [T1 T2]. wp1. wp1; [lia|]. destruct (Nat.ltb_spec (level + 1) touch.[p]) as [Hb|Hb].
    + wp1. destruct fuel as [|fuel]; [lia|]. cbn [while_]. wp1. rewrite rd_ok by lia. cbn [bind]. wp1. cbn [negb andb]. wp1.
      destruct (T2 p m Hp Hm) as [T3|T3]; [lia|]. splits; try lia. split; auto.
    + wp1. wp1; [lia|]. wp1. apply IH; auto; try lia. split; [now rewrite upd_length|]. intros x d Hx Hdx. destruct (Nat.eq_dec x p) as [->|Hne].
      * rewrite aget_upd_eq by lia. pose proof (dep_fun _ _ _ _ Hm _ Hdx). right. lia.
      * rewrite aget_upd_ne by lia. apply T2; auto.
Qed.

Lemma efficient_wp : exists h, get_tree_height_efficient n tree nChild None = Ok h /\ is_height n tree None h.
Proof.
  assert (G : wp (get_tree_height_efficient n tree nChild None) (is_height n tree None)).
  { unfold get_tree_height_efficient. wp1.
    apply (wp_for (fun i s => touched (snd s) (fst s) /\ (forall u d, u < i -> children n tree u = [] -> depth_of n tree None u d -> d <= fst s) /\ (forall m, (forall u d, u < n -> dep n tree u d -> d <= m) -> fst s <= m) )).
    - lia.
    - cbn [fst snd]. splits; try lia. split; [apply repeat_length|]. intros v d Hv _. left. now apply aget_repeat.
    - intros i [h touch] Hi (I1 & I2 & I3). cbn [fst snd] in *. destruct NC as [NC1 _]. wp1. wp1; [lia|]. rewrite (leaf_iff n tree nChild NC) by lia. destruct (children n tree i) as [|c l] eqn:Ec.
      + destruct (dep_exists n tree FO i ltac:(lia)) as [d Hd]. pose proof (dep_lt n tree i d ltac:(lia) Hd). wp1.
        assert (TT : touched touch (Nat.max h d)).
        { destruct I1 as [T1 T2]. split; auto. intros v e Hv He. destruct (T2 v e Hv He); [auto|]. right. lia. }
        eapply wp_mono; [apply (walk d (S n) i 0 touch h d)|]; auto; try lia. intros [[[b v] level] t'] (W1 & W2 & W3). wp1. cbn [fst snd].
        assert (EM : (if h <? level then level else h) = Nat.max h d) by (destruct (Nat.ltb_spec h level), W2; lia).
        rewrite EM. splits; auto.
        * intros u e Hu Hc He. destruct (Nat.eq_dec u i) as [->|]; [apply depth_dep in He; pose proof (dep_fun _ _ _ _ Hd _ He); lia|]. specialize (I2 u e ltac:(lia) Hc He). lia.
        * intros m Hm. specialize (I3 m Hm). specialize (Hm i d ltac:(lia) Hd). lia.
      + wp1. cbn [fst snd]. splits; auto. intros u e Hu Hc He. destruct (Nat.eq_dec u i) as [->|]; [congruence|]. apply (I2 u); auto. lia.
    - intros [h touch] (I1 & I2 & I3). cbn [fst snd] in *. wp1. cbn [fst].
      assert (U : is_height n tree None h); [|exact U].
      destruct (bruteforce_wp n tree None FO ltac:(intros w E; discriminate)) as (h' & _ & [B1 B2]).
      assert (h <= h') by (apply I3; intros u d Hu Hd; apply (B1 u); auto; now apply depth_dep).
      assert (h' <= h).
      { destruct B2 as [->|(u & Hu & Hd)]; [lia|]. destruct (dep_exists n tree FO u Hu) as [k Hk].
        destruct (deeper_leaf n tree None (n - k) u h' k Hu Hk (le_n _) Hd) as (v & e & A & B & C & D). specialize (I2 v e A B C). lia. }
      assert (h = h') by lia. subst h'. split; auto. }
  destruct (get_tree_height_efficient n tree nChild None) as [h|]; [|contradiction]. eauto.
Qed.
End Efficient.

(** * C66 *)

(** get_node_depth returns the depth of every node of every forest, weighted or not. *)
Theorem C66_node_depth : forall n tree wt u d, forest n tree -> weights_ok n wt -> u < n -> depth_of n tree wt u d ->
  get_node_depth n tree wt u = Ok d.
Proof. intros. apply get_node_depth_wp; auto. Qed.
Print Assumptions C66_node_depth.

(** The three height functions return the largest depth; the last one only without weights. *)
Theorem C66_heights : forall n tree wt nChild, forest n tree -> weights_ok n wt ->
  n <= length nChild -> (forall u, u < n -> nChild.[u] = length (children n tree u)) ->
  exists h, is_height n tree wt h /\
    get_tree_height_bruteforce n tree wt = Ok h /\ get_tree_height n tree nChild wt = Ok h /\
    (wt = None -> get_tree_height_efficient n tree nChild wt = Ok h).
Proof.
  intros n tree wt nChild FO WO N1 N2. destruct (bruteforce_wp n tree wt FO WO) as (h & E1 & H1). destruct (leaves_wp n tree wt FO WO nChild (conj N1 N2)) as (h' & E2 & H2).
  assert (U : forall a b, is_height n tree wt a -> is_height n tree wt b -> a <= b).
  { intros a b [_ [->|(u & Hu & Hd)]] [B _]; [lia|]. exact (B u a Hu Hd). }
  assert (h' = h) by (pose proof (U h h' H1 H2); pose proof (U h' h H2 H1); lia). subst h'.
  exists h. splits; auto. intros ->. destruct (efficient_wp n tree nChild FO (conj N1 N2)) as (h2 & E3 & H3). rewrite E3. f_equal. pose proof (U h h2 H1 H3). pose proof (U h2 h H3 H1). lia.
Qed.
Print Assumptions C66_heights.

Lemma forest_intro n tree : n <= length tree -> (forall u, u < n -> tree.[u] = (-1)%Z \/ (Z.of_nat u < tree.[u] < Z.of_nat n)%Z) -> forest n tree.
Proof. intros H1 H2. split; auto. split; [intros u Hu; destruct (H2 u Hu); lia|]. now apply larger_parents_rooted. Qed.

Example C66_case : let tree := [2; 2; 4; 4; -1]%Z in let nc := [0; 0; 2; 0; 2] in
  forest 5 tree /\ (forall u, u < 5 -> nc.[u] = length (children 5 tree u)) /\
  get_tree_height_bruteforce 5 tree None = Ok 2 /\ get_tree_height 5 tree nc (Some [1; 1; 1; 9; 1]) = Ok 10 /\ get_tree_height_efficient 5 tree nc None = Ok 2.
Proof.
  intros tree nc. splits; try (vm_compute; reflexivity).
  - apply forest_intro; [simpl; lia|]. intros [|[|[|[|[|u]]]]] Hu; try lia; (left; reflexivity) || (right; split; reflexivity).
  - intros [|[|[|[|[|u]]]]] Hu; try lia; reflexivity.
Qed.

(** With weights get_tree_height_efficient leaves out the weight of the leaf. *)
Theorem C66_efficient_weighted_refuted :
  ~ (forall n tree w nChild h h', forest n tree -> n <= length w -> n <= length nChild -> (forall u, u < n -> nChild.[u] = length (children n tree u)) ->
       get_tree_height n tree nChild (Some w) = Ok h -> get_tree_height_efficient n tree nChild (Some w) = Ok h' -> h = h').
Proof.
  intros H. specialize (H 2 [1; -1]%Z [5; 1] [0; 1] 6 1). assert (6 = 1); [|discriminate]. apply H; auto.
  - apply forest_intro; [simpl; lia|]. intros [|[|u]] Hu; try lia; (left; reflexivity) || (right; split; reflexivity).
  - intros [|[|u]] Hu; try lia; reflexivity.
Qed.
Print Assumptions C66_efficient_weighted_refuted.

(** * C67: subtree costs *)

Lemma desc_trans_chain n tree u a : desc n tree u a -> forall b, desc n tree u b -> desc n tree a b \/ desc n tree b a.
Proof.
  induction 1 as [u|u p a H1 H2 H3 IH]; intros b Hb; [auto|]. inversion Hb as [x|x q y H4 H5 H6]; subst.
  - right. econstructor; eauto.
  - replace q with p in * by lia. auto.
Qed.

Section Cost.
Variables (n : nat) (tree : list Z) (w : list nat).
Hypothesis TL : n <= length tree.
Hypothesis WL : n <= length w.
Hypothesis UP : forall u, u < n -> tree.[u] = (-1)%Z \/ (Z.of_nat u < tree.[u] < Z.of_nat n)%Z.

Lemma desc_le u v : desc n tree u v -> u < n -> u <= v /\ v < n.
Proof. induction 1 as [u|u p v H1 H2 H3 IH]; intros Hu; [lia|]. specialize (IH H2). destruct (UP u Hu); lia. Qed.

Definition wsum (l : list nat) : nat := list_sum (map (fun u => w.[u]) l).

Lemma wsum_perm a b : Permutation a b -> wsum a = wsum b.
Proof. unfold wsum. induction 1; simpl; lia. Qed.

Definition cost_inv (i : nat) (cost : list nat) : Prop :=
  length cost = n /\ exists f : nat -> list nat, forall v, v < n -> cost.[v] = wsum (f v) /\ NoDup (f v) /\
    (forall u, In u (f v) <-> u = v \/ (exists c, c < i /\ tree.[c] = Z.of_nat v /\ u < n /\ desc n tree u c)).

Lemma desc_child u v : u < n -> v < n -> desc n tree u v <-> u = v \/ exists c, c < v /\ tree.[c] = Z.of_nat v /\ desc n tree u c.
Proof.
  intros Hu Hv. split.
  - intros H. induction H as [u|u p v H1 H2 H3 IH]; [auto|]. right. destruct (IH H2 Hv) as [->|(c & A & B & C)].
    + exists u. splits; auto; [destruct (UP u Hu); lia|constructor].
    + exists c. splits; auto. econstructor; eauto.
  - intros [->|(c & A & B & C)]; [constructor|]. clear A Hu. induction C as [u|u p c H1 H2 H3 IH].
    + econstructor; eauto. constructor.
    + econstructor; eauto.
Qed.

Lemma compute_subtree_cost_wp : wp (compute_subtree_cost n tree w) (fun cost => length cost = n /\
  forall v l, v < n -> NoDup l -> (forall u, In u l <-> u < n /\ desc n tree u v) -> cost.[v] = wsum l).
Proof.
  unfold compute_subtree_cost. wp1.
  apply (wp_for (fun i cost => length cost = n /\ forall v, v < i -> cost.[v] = w.[v])).
  - lia.
  - split; [apply repeat_length|lia].
  - intros i cost Hi [L I]. wp1. wp1; [lia|]. wp1; [lia|]. split; [now rewrite upd_length|]. intros v Hv. destruct (Nat.eq_dec v i) as [->|]; [rewrite aget_upd_eq by lia; auto|rewrite aget_upd_ne by lia; apply I; lia].
  - intros cost0 [L0 I0]. apply (wp_for cost_inv).
    + lia.
    + split; auto. exists (fun v => [v]). intros v Hv. splits.
      * rewrite I0 by auto. unfold wsum. simpl. lia.
      * repeat constructor. simpl. tauto.
      * intros u. simpl. split; [intros [->|[]]; auto|]. intros [->|(c & A & _)]; [auto|lia].
    + intros i cost Hi (L & f & F). wp1. wp1; [lia|]. destruct (UP i ltac:(lia)) as [E|E].
      * rewrite E. cbn. split; auto. exists f. intros v Hv. destruct (F v Hv) as (F1 & F2 & F3). splits; auto. intros u. rewrite F3. split.
        -- intros [->|(c & A & B & C)]; [auto|]. right. exists c. split; [lia|auto].
        -- intros [->|(c & A & B & C)]; [auto|]. right. exists c. split; [|auto]. assert (c <> i) by (intros ->; lia). lia.
      * destruct (Z.ltb_spec 0 tree.[i]); [|lia]. set (p := Z.to_nat tree.[i]). assert (Ep : tree.[i] = Z.of_nat p) by lia. assert (Hp : i < p < n) by lia.
        rewrite Ep. unfold rdZ, wrZ. destruct (Z.ltb_spec (Z.of_nat p) 0); [lia|]. rewrite Nat2Z.id. wp1. wp1; [lia|]. wp1. wp1; [lia|]. wp1; [lia|].
        split; [now rewrite upd_length|]. exists (fun v => if v =? p then f p ++ f i else f v). intros v Hv.
        destruct (F i ltac:(lia)) as (G1 & G2 & G3).
        assert (G4 : forall u, In u (f i) <-> u < n /\ desc n tree u i).
        { intros u. rewrite G3. split.
          - intros [->|(c & A & B & C & D)]; [split; [lia|constructor]|]. split; auto. apply desc_child; auto; try lia. right. exists c. auto.
          - intros [A B]. apply desc_child in B; auto; [|lia]. destruct B as [->|(c & C & D & X)]; [auto|]. right. exists c. auto. }
        destruct (Nat.eqb_spec v p) as [->|Hne].
        -- rewrite aget_upd_eq by lia. destruct (F p ltac:(lia)) as (F1 & F2 & F3). splits.
           ++ rewrite F1, G1. unfold wsum. rewrite map_app, list_sum_app. reflexivity.
           ++ apply L_Group4.NoDup_app_iff; splits; auto. intros u H1 H2. apply G4 in H2. destruct H2 as [H2 H3]. apply F3 in H1. destruct (desc_le u i H3 H2).
              destruct H1 as [->|(c & A & B & C & D)]; [lia|]. destruct (desc_trans_chain n tree u c D i H3) as [X|X].
              ** inversion X as [x|x q y X1 X2 X3]; [lia|]. destruct (desc_le q i X3 X2). lia.
              ** destruct (desc_le i c X ltac:(lia)). lia.
           ++ intros u. rewrite in_app_iff, F3, G4. split.
              ** intros [[->|(c & A & B & C)]|[A B]]; [auto| |]; right; [exists c; split; [lia|auto]|exists i; splits; auto; lia].
              ** intros [->|(c & A & B & C & D)]; [auto|]. destruct (Nat.eq_dec c i) as [->|]; [auto|]. left. right. exists c. split; [lia|auto].
        -- rewrite aget_upd_ne by lia. destruct (F v Hv) as (F1 & F2 & F3). splits; auto. intros u. rewrite F3. split.
           ++ intros [->|(c & A & B & C)]; [auto|]. right. exists c. split; [lia|auto].
           ++ intros [->|(c & A & B & C)]; [auto|]. right. exists c. split; [|auto]. assert (c <> i) by (intros ->; lia). lia.
    + intros cost (L & f & F). split; auto. intros v l Hv ND Hl. destruct (F v Hv) as (F1 & F2 & F3). rewrite F1. apply wsum_perm. apply NoDup_Permutation; auto.
      intros u. rewrite F3, Hl. split.
      * intros [->|(c & A & B & C & D)]; [split; [auto|constructor]|]. split; auto. apply desc_child; auto. right. exists c. splits; auto. destruct (UP c A); lia.
      * intros [A B]. apply desc_child in B; auto. destruct B as [->|(c & C & D & X)]; [auto|]. right. exists c. splits; auto. lia.
Qed.
End Cost.

(** compute_subtree_cost returns, for every node, the total weight of the node and everything
    below it, whenever parents have larger indices than their children. *)
Theorem C67_subtree_cost : forall n tree w, n <= length tree -> n <= length w ->
  (forall u, u < n -> tree.[u] = (-1)%Z \/ (Z.of_nat u < tree.[u] < Z.of_nat n)%Z) ->
  exists cost, compute_subtree_cost n tree w = Ok cost /\ length cost = n /\
    forall v l, v < n -> NoDup l -> (forall u, In u l <-> u < n /\ desc n tree u v) ->
      cost.[v] = list_sum (map (fun u => w.[u]) l).
Proof.
  intros n tree w H1 H2 H3. pose proof (compute_subtree_cost_wp n tree w H1 H2 H3) as G. destruct (compute_subtree_cost n tree w) as [cost|]; [|contradiction].
  exists cost. destruct G as [G1 G2]. splits; auto.
Qed.
Print Assumptions C67_subtree_cost.

Example C67_case : compute_subtree_cost 5 [2; 2; 4; 4; -1]%Z [1; 2; 4; 8; 16] = Ok [1; 2; 7; 8; 31]
  /\ (forall u, u < 5 -> let t := [2; 2; 4; 4; -1]%Z in t.[u] = (-1)%Z \/ (Z.of_nat u < t.[u] < 5)%Z).
Proof. split; [reflexivity|]. intros [|[|[|[|[|u]]]]] Hu; try lia; (left; reflexivity) || (right; split; reflexivity). Qed.

(** In a forest numbered otherwise a subtree's cost can be incomplete: node 3 hangs below node 1
    and is added to it only after node 1 was added to node 2; and nothing is added to node 0. *)
Theorem C67_any_order_refuted :
  (forest 4 [-1; 2; -1; 1]%Z /\ compute_subtree_cost 4 [-1; 2; -1; 1]%Z [1; 1; 1; 1] = Ok [1; 2; 2; 1] /\ desc 4 [-1; 2; -1; 1]%Z 3 2 /\ desc 4 [-1; 2; -1; 1]%Z 1 2) /\
  (forest 2 [-1; 0]%Z /\ compute_subtree_cost 2 [-1; 0]%Z [1; 1] = Ok [1; 1] /\ desc 2 [-1; 0]%Z 1 0).
Proof.
  assert (S1 : forall n tree u p, tree.[u] = Z.of_nat p -> p < n -> desc n tree u p) by (intros; econstructor; eauto; constructor).
  assert (A1 : desc 4 [-1; 2; -1; 1]%Z 1 2) by (apply S1; [reflexivity|lia]).
  assert (A2 : desc 4 [-1; 2; -1; 1]%Z 3 2) by (eapply desc_step; [| |apply A1]; [reflexivity|lia]).
  assert (A3 : desc 2 [-1; 0]%Z 1 0) by (apply S1; [reflexivity|lia]).
  splits; auto; split; try (simpl; lia); split.
  - intros [|[|[|[|u]]]] Hu; try lia; vm_compute; split; congruence.
  - intros [|[|[|[|u]]]] Hu; try lia; [exists 0|exists 2|exists 2|exists 2]; split; auto; constructor.
  - intros [|[|u]] Hu; try lia; vm_compute; split; congruence.
  - intros [|[|u]] Hu; try lia; exists 0; split; auto; constructor.
Qed.
Print Assumptions C67_any_order_refuted.
