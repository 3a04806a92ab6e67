(** Properties of the child lists (C38). *)
From Coq Require Import ZifyBool ZifyNat.
From Verif Require Import Base Lib Lib2 Lib3 Spec Check M_Tree.

(** * Specification *)

(** the children of [p], in increasing order *)
Definition children (n : nat) (tree : list Z) (p : nat) : list nat :=
  filter (fun l => (tree.[l] =? Z.of_nat p)%Z) (seq 0 n).

(** a parent array over [n] nodes: every entry is negative or a node *)
Definition parent_array (n : nat) (tree : list Z) : Prop :=
  n <= length tree /\ forall l, l < n -> (tree.[l] < Z.of_nat n)%Z.

Section Children.
Variables (n : nat) (tree : list Z).
Hypothesis PA : parent_array n tree.

(** the bucket of a node: its parent, [n] for a root *)
Definition key (l : nat) : nat := if (0 <=? tree.[l])%Z then Z.to_nat tree.[l] else n.

Lemma key_parent l p : l < n -> p < n -> (key l =? p) = (tree.[l] =? Z.of_nat p)%Z.
Proof. intros Hl Hp. unfold key. destruct (Z.leb_spec 0 tree.[l]); lia. Qed.

Lemma key_lt l : l < n -> (0 <= tree.[l])%Z -> key l < n /\ Z.to_nat tree.[l] = key l.
Proof. intros Hl H. destruct PA as [_ HB]. specialize (HB l Hl). unfold key. destruct (Z.leb_spec 0 tree.[l]); lia. Qed.

Lemma key_root l : (tree.[l] < 0)%Z -> key l = n.
Proof. intros H. unfold key. destruct (Z.leb_spec 0 tree.[l]); lia. Qed.

Lemma children_filter p : p < n -> children n tree p = filter (fun l => key l =? p) (seq 0 n).
Proof. intros Hp. apply filter_ext_in'. intros l Hl. apply in_seq in Hl. symmetry. apply key_parent; lia. Qed.

Lemma children_length p : p < n -> length (children n tree p) = cnt 0 n (fun l => key l =? p).
Proof. intros Hp. rewrite children_filter by auto. rewrite cnt_filter. now rewrite Nat.sub_0_r. Qed.

Lemma rdZ_wp {A} `{Dflt A} (l : list A) (i : Z) (Q : A -> Prop) : (0 <= i)%Z -> Z.to_nat i < length l -> Q l.[Z.to_nat i] -> wp (rdZ l i) Q.
Proof. intros H1 H2 HQ. unfold rdZ. destruct (Z.ltb_spec i 0); [lia|]. wp1; auto. Qed.

Lemma wrZ_wp {A} `{Dflt A} (l : list A) (i : Z) v (Q : list A -> Prop) : (0 <= i)%Z -> Z.to_nat i < length l -> Q (upd l (Z.to_nat i) v) -> wp (wrZ l i v) Q.
Proof. intros H1 H2 HQ. unfold wrZ. destruct (Z.ltb_spec i 0); [lia|]. wp1; auto. Qed.

Definition nroots : nat := cnt 0 n (fun l => (tree.[l] <? 0)%Z).

Lemma cbase_roots : cbase n key n = n - nroots.
Proof.
  assert (cbase n key (S n) = n) by (apply cbase_all; intros l Hl; destruct (Z.leb_spec 0 tree.[l]); [pose proof (key_lt l Hl H); lia|rewrite key_root; lia]).
  rewrite cbase_S in H. assert (E : cnt 0 n (fun i => key i =? n) = nroots); [|lia].
  apply cnt_ext. intros l Hl. destruct (Z.ltb_spec tree.[l] 0) as [H0|H0]; [rewrite key_root by auto; apply Nat.eqb_refl|]. pose proof (key_lt l ltac:(lia) H0). lia.
Qed.

Theorem populate_children_wp childPtr childNo nChild :
  n < length childPtr -> n - nroots <= length childNo -> n <= length nChild -> (forall p, p < n -> nChild.[p] = 0) ->
  wp (populate_children n tree childPtr childNo nChild) (fun r => let '(ptr, no, nc) := r in
    length ptr = length childPtr /\ length no = length childNo /\ length nc = length nChild /\
    (forall k, k <= n -> ptr.[k] = cbase n key k) /\
    (forall p, p < n -> nc.[p] = cnt 0 n (fun l => key l =? p)) /\
    (forall l, l < n -> key l < n -> no.[cpos n key l] = l)).
Proof.
  intros H1 H2 H3 H4. destruct PA as [PL PB]. unfold populate_children. wp1.
  apply (wp_for (fun i nc => length nc = length nChild /\ forall p, p < n -> nc.[p] = cnt 0 i (fun l => key l =? p))).
  - lia.
  - split; auto.
  - intros l nc Hl (I1 & I2). wp1. wp1; [lia|]. destruct (Z.leb_spec 0 tree.[l]) as [H0|H0].
    + destruct (key_lt l ltac:(lia) H0) as [K1 K2]. wp1. apply rdZ_wp; [lia|lia|]. apply wrZ_wp; [lia|lia|]. rewrite upd_length. split; auto.
      intros p Hp. rewrite cnt_S by lia. rewrite K2. destruct (Nat.eqb_spec (key l) p) as [->|Hne]; simpl.
      * rewrite aget_upd_eq, I2 by lia. lia.
      * rewrite aget_upd_ne, I2 by lia. lia.
    + wp1. split; auto. intros p Hp. rewrite cnt_S by lia. rewrite I2 by auto. rewrite (key_root l H0). destruct (Nat.eqb_spec n p); simpl; lia.
  - intros nc (I1 & I2). wp1. wp1; [lia|]. wp1.
    apply (wp_for (fun k ptr => length ptr = length childPtr /\ forall k', k' < k -> ptr.[k'] = cbase n key k')).
    + lia.
    + rewrite upd_length. split; auto. intros k' Hk'. assert (k' = 0) by lia. subst. rewrite aget_upd_eq by lia. now rewrite cbase_0.
    + intros k ptr Hk (J1 & J2). wp1. wp1; [lia|]. wp1. wp1; [lia|]. wp1; [lia|]. rewrite upd_length. split; auto.
      intros k' Hk'. destruct (Nat.eq_dec k' k) as [->|].
      * rewrite aget_upd_eq by lia. rewrite J2, I2 by lia. destruct k as [|k]; [lia|]. simpl. rewrite Nat.sub_0_r. now rewrite cbase_S.
      * rewrite aget_upd_ne by lia. apply J2. lia.
    + intros ptr (J1 & J2). wp1.
      apply (wp_for (fun i s => length (fst s) = length childNo /\ length (snd s) = n /\ (forall p, p < n -> (snd s).[p] = cnt 0 i (fun l => key l =? p)) /\
          forall l, l < i -> key l < n -> (fst s).[cpos n key l] = l)).
      * lia.
      * cbn [fst snd]. rewrite repeat_length. splits; auto; try lia. intros p Hp. rewrite aget_repeat by auto. reflexivity.
      * intros l [no c] Hl (K1 & K2 & K3 & K4). cbn [fst snd] in *. wp1. wp1; [lia|]. destruct (Z.leb_spec 0 tree.[l]) as [H0|H0].
        -- destruct (key_lt l ltac:(lia) H0) as [Q1 Q2]. wp1. apply rdZ_wp; [lia|lia|]. wp1. apply rdZ_wp; [lia|lia|]. rewrite Q2, J2, K3 by lia. fold (cpos n key l).
           pose proof (cpos_hi n key l ltac:(lia)). pose proof (cbase_mono n key (S (key l)) n ltac:(lia)). rewrite cbase_roots in *.
           wp1. wp1; [lia|]. wp1. apply wrZ_wp; [lia|lia|]. wp1. cbn [fst snd]. rewrite !upd_length. splits; auto.
           ++ intros p Hp. rewrite cnt_S by lia. rewrite Q2. destruct (Nat.eqb_spec (key l) p) as [->|Hne]; simpl.
              ** rewrite aget_upd_eq by lia. lia.
              ** rewrite aget_upd_ne, K3 by lia. lia.
           ++ intros l' Hl' Hk'. destruct (Nat.eq_dec l' l) as [->|].
              ** rewrite aget_upd_eq by lia. auto.
              ** rewrite aget_upd_ne; [apply K4; auto; lia|]. intros E. apply cpos_inj in E; lia.
        -- wp1. cbn [fst snd]. splits; auto.
           ++ intros p Hp. rewrite cnt_S by lia. rewrite K3 by auto. rewrite (key_root l H0). destruct (Nat.eqb_spec n p); simpl; lia.
           ++ intros l' Hl' Hk'. destruct (Nat.eq_dec l' l) as [->|]; [|apply K4; auto; lia]. rewrite (key_root l H0) in Hk'. lia.
      * intros [no c] (K1 & K2 & K3 & K4). cbn [fst snd] in *. wp1. splits; auto. intros k Hk. apply J2. lia.
Qed.

End Children.

(** * C38 *)

(** For every parent array and arrays of the caller that are long enough, with the counters
    zeroed: the list of every node is exactly its children in increasing order, and the
    counters hold their number. *)
Theorem C38_children : forall n tree childPtr childNo nChild,
  parent_array n tree -> n < length childPtr -> n <= length childNo -> n <= length nChild -> (forall p, p < n -> nChild.[p] = 0) ->
  exists ptr no nc, populate_children n tree childPtr childNo nChild = Ok (ptr, no, nc) /\
    ptr.[0] = 0 /\
    forall p, p < n -> ptr.[p] <= ptr.[S p] /\ slice no ptr.[p] ptr.[S p] = children n tree p /\ nc.[p] = length (children n tree p).
Proof.
  intros n tree childPtr childNo nChild PA H1 H2 H3 H4.
  pose proof (populate_children_wp n tree PA childPtr childNo nChild H1 ltac:(lia) H3 H4) as G.
  destruct (populate_children n tree childPtr childNo nChild) as [[[ptr no] nc]|]; [|contradiction]. cbn in G. destruct G as (G1 & G2 & G3 & G4 & G5 & G6).
  exists ptr, no, nc. split; auto. split; [rewrite G4 by lia; apply cbase_0|]. intros p Hp. rewrite !G4 by lia. pose proof (cbase_mono n (key n tree) p (S p) ltac:(lia)).
  splits; auto.
  - rewrite children_filter by auto.
    replace (slice no (cbase n (key n tree) p) (cbase n (key n tree) (S p))) with (map (aget no) (seq (cbase n (key n tree) p) (cbase n (key n tree) (S p) - cbase n (key n tree) p))).
    + rewrite cbase_S, Nat.add_comm, Nat.add_sub. rewrite <- cpos_bucket_seq by lia. rewrite map_map. rewrite <- (map_id (filter _ _)) at 2.
      apply map_ext_in. intros l Hl. apply filter_In in Hl. destruct Hl as [Hl Hk]. apply in_seq in Hl. apply Nat.eqb_eq in Hk. apply G6; lia.
    + pose proof (cbase_le n (key n tree) (S p)). apply list_ext.
      * rewrite map_length, seq_length, slice_length by lia. auto.
      * rewrite map_length, seq_length. intros i Hi. rewrite aget_map by (rewrite seq_length; lia). rewrite aget_seq by lia. now rewrite aget_slice by lia.
  - rewrite G5 by auto. symmetry. apply children_length; auto.
Qed.
Print Assumptions C38_children.

Example C38_case : populate_children 5 [3; 3; 4; 4; -1]%Z (repeat 9 6) (repeat 9 5) (repeat 0 5) = Ok ([0; 0; 0; 0; 2; 4], [0; 1; 2; 3; 9], [0; 0; 0; 2; 2]) /\
  parent_array 5 [3; 3; 4; 4; -1]%Z /\ children 5 [3; 3; 4; 4; -1]%Z 3 = [0; 1].
Proof. splits; try reflexivity. split; [simpl; lia|]. intros [|[|[|[|[|l]]]]] Hl; vm_compute; try reflexivity. lia. Qed.

(** The counters are not reset by the function: with the counters of an earlier call the lists
    are wrong. *)
Theorem C38_stale_counters_refuted :
  ~ (forall n tree childPtr childNo nChild ptr no nc,
       parent_array n tree -> populate_children n tree childPtr childNo nChild = Ok (ptr, no, nc) ->
       forall p, p < n -> slice no ptr.[p] ptr.[S p] = children n tree p).
Proof.
  intros H. specialize (H 3 [1; 2; -1]%Z [0; 0; 0; 0] (repeat 0 6) [0; 1; 1] [0; 0; 2; 4] [0; 0; 1; 0; 0; 0] [0; 2; 2]).
  assert (E : [0; 0] = [0]); [|discriminate]. apply (H ltac:(split; [simpl; lia|intros [|[|[|l]]] Hl; vm_compute; try reflexivity; lia]) eq_refl 1). lia.
Qed.
Print Assumptions C38_stale_counters_refuted.

(** tree_to_csc: the lists of children of a single tree, with the number of edges in the
    [nnz] field *)
Theorem C38_tree_to_csc : forall n tree, parent_array n tree -> cnt 0 n (fun l => (tree.[l] <? 0)%Z) = 1 ->
  exists p i, tree_to_csc n tree = Ok (p, i, (Z.of_nat n - 1)%Z) /\ length p = S n /\ p.[0] = 0 /\ Z.of_nat p.[n] = (Z.of_nat n - 1)%Z /\
    forall v, v < n -> p.[v] <= p.[S v] /\ slice i p.[v] p.[S v] = children n tree v.
Proof.
  intros n tree PA HR. unfold tree_to_csc.
  pose proof (populate_children_wp n tree PA (repeat 0 (n + 1)) (repeat 0 n) (repeat 0 n)) as G. rewrite !repeat_length in G.
  specialize (G ltac:(lia) ltac:(lia) ltac:(lia) ltac:(intros; now rewrite aget_repeat)).
  destruct (C38_children n tree (repeat 0 (n + 1)) (repeat 0 n) (repeat 0 n) PA) as (ptr & no & nc & E & E0 & E1); rewrite ?repeat_length; try lia; [intros; now rewrite aget_repeat|].
  rewrite E in *. cbn in G. destruct G as (G1 & G2 & G3 & G4 & G5 & G6). exists ptr, no. cbn. splits; auto; try lia.
  - rewrite G4 by lia. rewrite cbase_roots by auto. unfold nroots. rewrite HR. pose proof (cnt_le 0 n (fun l => (tree.[l] <? 0)%Z)). lia.
  - intros v Hv. destruct (E1 v Hv) as (A & B & _). auto.
Qed.
Print Assumptions C38_tree_to_csc.

Example C38_tree_case : tree_to_csc 4 [2; 2; 3; -1]%Z = Ok ([0; 0; 0; 2; 3], [0; 1; 2; 0], 3%Z).
Proof. reflexivity. Qed.

(** for a forest the field does not agree with the arrays *)
Theorem C38_forest_nnz_refuted :
  ~ (forall n tree p i z, parent_array n tree -> tree_to_csc n tree = Ok (p, i, z) -> Z.of_nat p.[n] = z).
Proof.
  intros H. specialize (H 2 [-1; -1]%Z [0; 0; 0] [0; 0] 1%Z). assert (E : 0%Z = 1%Z); [|discriminate].
  apply H; [|reflexivity]. split; [simpl; lia|]. intros [|[|l]] Hl; vm_compute; try reflexivity. lia.
Qed.
Print Assumptions C38_forest_nnz_refuted.
