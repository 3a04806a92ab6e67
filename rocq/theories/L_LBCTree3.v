(** post_order_spliting: the parts are the trees of the forest. *)
From Coq Require Import ZifyBool ZifyNat.
From Verif Require Import Base Lib Lib2 Lib3 Spec M_Tree M_LBC M_LBCTree P_Tree L_Post2 P_Post P_TreeH L_LBCTree L_LBC4 L_LBCTree2.

(** every node that is not -2 is in one part; the parts are the trees, children before parents *)
Definition tree_parts (n : nat) (tt : list Z) (parts : list (list nat)) : Prop :=
  NoDup (concat parts) /\ (forall v, In v (concat parts) <-> v < n /\ tt.[v] <> (-2)%Z) /\
  (forall part, In part parts -> exists R, R < n /\ tt.[R] = (-1)%Z /\ forall v, In v part <-> v < n /\ reaches (tree_edge n tt) v R) /\
  (forall part pre v post c, In part parts -> part = pre ++ v :: post -> tree_edge n tt c v -> In c pre).

Section Outer.
Context {T : Type} {DT : Dflt T}.
Variables (add : T -> T -> T).
Variables (n : nat) (tt : list Z) (cost : list T) (cp cn : list nat).
Hypothesis PF : part_forest n tt.
Hypothesis CL : n <= length cost.
Notation E := (tree_edge n tt).
Notation key := (key n tt).
Hypothesis CP : n < length cp /\ forall k, k <= n -> cp.[k] = cbase n key k.
Hypothesis CN : n - nroots n tt <= length cn /\ forall l, l < n -> key l < n -> cn.[cpos n key l] = l.

Lemma dep_chain v d : dep n tt v d -> v < n -> exists R, R < n /\ tt.[R] = (-1)%Z /\ chain E v R d.
Proof.
  induction 1 as [r Hr|u p d Hu Hp Hd IH]; intros Hv.
  - exists r. splits; auto. constructor.
  - destruct (IH Hp) as (R & A & B & C). exists R. splits; auto. apply (chain_cons E u p R d); auto. split; auto.
Qed.

Lemma down_chain (vis : list bool) c v k : (forall c v, E c v -> vis.[v] = true -> vis.[c] = true) -> chain E c v k -> vis.[v] = true -> vis.[c] = true.
Proof. intros H. revert c. induction k as [|k IH]; intros c Hc Hv; [inversion Hc; subst; auto|]. apply chain_uncons in Hc. destruct Hc as (w & A & B). apply (H c w); auto. Qed.

Lemma up_chain (vis : list bool) c v k : (forall y, vis.[y] = true -> forall p, E y p -> vis.[p] = true) -> chain E c v k -> vis.[c] = true -> vis.[v] = true.
Proof. intros H. revert c. induction k as [|k IH]; intros c Hc Hv; [inversion Hc; subst; auto|]. apply chain_uncons in Hc. destruct Hc as (w & A & B). apply (IH w); eauto. Qed.

Lemma post_order_spliting_wp nc bins oc (Q : list (list nat) * list T * list nat -> Prop) :
  length nc = n -> (forall v, v < n -> nc.[v] = cnt 0 n (fun c => key c =? v)) -> 0 < bins -> n <= length oc ->
  (forall parts oc' nc', tree_parts n tt parts -> length parts <= n -> length oc' = length oc ->
     (forall j, j < length parts -> oc'.[j] = fold_left add (map (aget cost) parts.[j]) oc.[j]) -> Q (parts, oc', nc')) ->
  wp (post_order_spliting add n tt cost cp cn nc bins oc) Q.
Proof.
  intros H1 H2 Hb Ho HQ. unfold post_order_spliting. destruct (Nat.eqb_spec bins 0); [lia|]. pose proof (TL n tt PF) as TL. wp1.
  apply (wp_for (fun i '(parts, stack, vis, mark, nc', oc') => stack = [] /\ length vis = n /\ length mark = n /\ length nc' = n /\ length oc' = length oc /\
     (forall v, v < n -> nc'.[v] = cnt 0 n (fun c => (key c =? v) && negb vis.[c])) /\
     (forall c v, E c v -> vis.[v] = true -> vis.[c] = true) /\ (forall y, vis.[y] = true -> forall p, E y p -> vis.[p] = true) /\
     (forall v, v < n -> mark.[v] = true -> vis.[v] = true) /\
     (forall v, In v (concat parts) <-> v < n /\ vis.[v] = true) /\ NoDup (concat parts) /\
     (forall part, In part parts -> exists R, R < n /\ tt.[R] = (-1)%Z /\ forall v, In v part <-> v < n /\ reaches E v R) /\
     (forall part pre v post c, In part parts -> part = pre ++ v :: post -> E c v -> In c pre) /\
     length parts <= i /\ (forall v, v < i -> tt.[v] <> (-2)%Z -> vis.[v] = true) /\
     (forall j, j < length parts -> oc'.[j] = fold_left add (map (aget cost) parts.[j]) oc.[j]) /\ (forall j, length parts <= j -> oc'.[j] = oc.[j]))).
  - lia.
  - assert (RF : forall v, (repeat false n).[v] = false).
    { intros v. destruct (le_lt_dec n v); [now rewrite aget_overflow by (rewrite repeat_length; lia)|now rewrite aget_repeat]. }
    splits; try (apply repeat_length); try (intros ? Hj; cbn [length] in Hj; exfalso; lia); auto; try (now intros; rewrite RF in * ).
    + intros v Hv. rewrite H2 by auto. apply cnt_ext. intros i _. now rewrite RF, andb_true_r.
    + constructor.
    + easy.
    + easy.
  - intros i [[[[[parts stack] vis] mark] nc'] oc'] Hi (I1 & I2 & I3 & I4 & I5 & I6 & I7 & I8 & I9 & I10 & I11 & I12 & I13 & I14 & I15 & I16 & I17). subst stack.
    wp1. wp1; [lia|]. destruct (Z.eqb_spec tt.[i] (-2)) as [Ei|Ni].
    { wp1. splits; auto. intros v Hv Hne. destruct (Nat.eq_dec v i) as [->|]; [easy|apply I15; auto; lia]. }
    wp1. wp1; [lia|]. destruct vis.[i] eqn:Ev.
    { wp1. splits; auto. intros v Hv Hne. destruct (Nat.eq_dec v i) as [->|]; [auto|apply I15; auto; lia]. }
    destruct (in_dep n tt PF i ltac:(lia) Ni) as [d Hd]. destruct (dep_chain i d Hd ltac:(lia)) as (R & R1 & R2 & R3).
    wp1. cbn [app]. apply (tree_wp add n tt cost cp cn PF CL CP CN vis R (length parts) oc'); auto; try lia.
    + unfold inv. splits; [| |easy].
      * unfold invA. splits; auto; try easy.
        -- intros v Hv. simpl. intuition.
        -- constructor.
        -- intros pre v post c Ep. destruct pre; discriminate.
      * unfold invB. splits; auto.
        -- repeat constructor. easy.
        -- simpl. auto.
        -- intros x [<-|[]]. splits; auto; [lia|eauto].
        -- intros c x k [<-|[]] Hc Hch. exfalso. pose proof (up_chain vis c i k I8 Hch Hc). congruence.
        -- intros v p Hv He Hp. specialize (I8 v Hv p He). congruence.
    + intros vis' mark' nc'' part oc'' JA JB JR. cbv beta iota. wp1. destruct JA as (A1 & A2 & A3 & A4 & A5 & A6 & A7 & A8 & A9 & A10 & A11). destruct JB as (B1 & _ & _ & _ & _ & B6 & B7).
      assert (UPV : forall y, vis'.[y] = true -> forall p, E y p -> vis'.[p] = true).
      { intros y Hy p He. destruct vis'.[p] eqn:E0; auto. now destruct (B7 y p Hy He E0). }
      assert (PART : forall v, In v part <-> v < n /\ reaches E v R).
      { intros v. split; [intros Hv; now destruct (A8 v Hv) as (G1 & _ & G2)|]. intros [Hv [k Hk]]. pose proof (down_chain vis' v R k A5 Hk JR) as Hvv. apply A6 in Hvv; auto. destruct Hvv as [G|G]; auto.
        exfalso. pose proof (up_chain vis v R k I8 Hk G) as GR. pose proof (down_chain vis i R d I7 R3 GR). congruence. }
      rewrite app_length. cbn [length]. splits; auto; try lia.
      * intros v Hv Hm. destruct (B6 v Hv Hm) as [|[]]; auto.
      * intros v. rewrite concat_app, in_app_iff. cbn [concat]. rewrite app_nil_r, I10. split.
        -- intros [[G1 G2]|G]; [split; auto; apply A6; auto|]. destruct (A8 v G) as (G1 & _ & _). split; auto. apply A6; auto.
        -- intros [G1 G2]. apply A6 in G2; auto. destruct G2; auto.
      * rewrite concat_app. cbn [concat]. rewrite app_nil_r. apply NoDup_app_intro; auto. intros x Hx Hx'. apply I10 in Hx. destruct (A8 x Hx') as (_ & G & _). destruct Hx. congruence.
      * intros q Hq. apply in_app_iff in Hq. destruct Hq as [Hq|[<-|[]]]; [now apply I12|]. exists R. auto.
      * intros q pre v post c Hq. apply in_app_iff in Hq. destruct Hq as [Hq|[<-|[]]]; [now apply I13|]. apply A9.
      * intros v Hv Hne. apply A6; [lia|]. destruct (Nat.eq_dec v i) as [->|]; [right; apply PART; split; [lia|exists d; auto]|left; apply I15; auto; lia].
      * intros j Hj. destruct (Nat.eq_dec j (length parts)) as [->|].
        -- rewrite A10. rewrite aget_app_last. now rewrite I17.
        -- rewrite A11 by auto. rewrite aget_app1 by lia. apply I16. lia.
      * intros j Hj. rewrite A11 by lia. apply I17. lia.
  - intros [[[[[parts stack] vis] mark] nc'] oc'] (I1 & I2 & I3 & I4 & I5 & I6 & I7 & I8 & I9 & I10 & I11 & I12 & I13 & I14 & I15 & I16 & I17). wp1. apply HQ; auto.
    unfold tree_parts. splits; auto. intros v. rewrite I10. split; intros [G1 G2]; split; auto.
    assert (Hin : In v (concat parts)) by (apply I10; auto). apply in_concat in Hin. destruct Hin as (part & P1 & P2). destruct (I12 part P1) as (R & R1 & R2 & R3).
    apply R3 in P2. destruct P2 as [_ [k Hk]]. destruct k; [inversion Hk; subst; lia|]. apply chain_uncons in Hk. destruct Hk as (w & (_ & _ & W) & _). lia.
Qed.

End Outer.
