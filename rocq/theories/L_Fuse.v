(** Blocks of columns; degrees and successors of level_set_bn. *)
From Verif Require Import Base Lib Lib2 Spec SpecFuse M_Multi M_Fuse L_Bfs.
From Verif Require P_Tree.
From Coq Require Import ZifyBool ZifyNat.

Section Cuts.
Variables (lower : bool) (n nodes : nat) (super : list Z).
Hypothesis CU : cutsZ lower n nodes super.

Definition cut (s : nat) : nat := Z.to_nat (if lower then super.[s] else Z.of_nat n - 1 - super.[s])%Z.
Definition pos (v : nat) : nat := if lower then v else n - 1 - v.

Lemma cut_facts : cut 0 = 0 /\ cut nodes = n /\ (forall s, s < nodes -> cut s < cut (S s)) /\ nodes < length super /\
  (forall s, s <= nodes -> super.[s] = if lower then Z.of_nat (cut s) else (Z.of_nat n - 1 - Z.of_nat (cut s))%Z).
Proof.
  unfold cut. pose proof CU as CU'. unfold cutsZ in CU'. destruct lower; destruct CU' as (C0 & C1 & C2 & C3).
  - assert (G : forall s, s <= nodes -> (0 <= super.[s])%Z).
    { induction s as [|s IH]; intros Hs; [lia|]. specialize (C3 s ltac:(lia)). specialize (IH ltac:(lia)). lia. }
    splits; auto; try lia.
    + intros s Hs. pose proof (C3 s Hs). pose proof (G s ltac:(lia)). lia.
    + intros s Hs. pose proof (G s Hs). lia.
  - assert (G : forall s, s <= nodes -> (super.[s] <= Z.of_nat n - 1)%Z).
    { induction s as [|s IH]; intros Hs; [lia|]. specialize (C3 s ltac:(lia)). specialize (IH ltac:(lia)). lia. }
    splits; auto; try lia.
    + intros s Hs. pose proof (C3 s Hs). pose proof (G s ltac:(lia)). lia.
    + intros s Hs. pose proof (G s Hs). lia.
Qed.

Lemma cut_mono a b : a <= b -> b <= nodes -> cut a <= cut b.
Proof. destruct cut_facts as (_ & _ & C & _). apply (mono_le cut nodes). intros i Hi. specialize (C i Hi). lia. Qed.
Lemma cut_lt s : s < nodes -> cut s < cut (S s) /\ cut (S s) <= n.
Proof. intros Hs. destruct cut_facts as (_ & C1 & C & _). split; [auto|]. rewrite <- C1. apply cut_mono; lia. Qed.

Lemma has_iff s v : s < nodes -> v < n -> (block_has lower super s v <-> cut s <= pos v < cut (S s)).
Proof.
  intros Hs Hv. destruct cut_facts as (_ & _ & _ & _ & C). destruct (cut_lt s Hs). unfold block_has, pos. rewrite !C by lia. destruct lower; lia.
Qed.
Lemma has_lt s v : s < nodes -> block_has lower super s v -> v < n.
Proof. intros Hs. destruct cut_facts as (_ & _ & _ & _ & C). destruct (cut_lt s Hs). unfold block_has. rewrite !C by lia. destruct lower; lia. Qed.

Lemma block_of v : v < n -> exists s, s < nodes /\ block_has lower super s v.
Proof.
  intros Hv. destruct cut_facts as (C0 & C1 & C2 & _). assert (pos v < n) by (unfold pos; destruct lower; lia).
  destruct (bucket_exists cut nodes (pos v)) as (s & Hs & H'); try lia. exists s. split; auto. now apply has_iff.
Qed.
Lemma block_one s t v : s < nodes -> t < nodes -> block_has lower super s v -> block_has lower super t v -> s = t.
Proof.
  intros Hs Ht H1 H2. pose proof (has_lt s v Hs H1). apply has_iff in H1, H2; auto.
  apply (bucket_unique cut nodes s t (pos v)); auto. intros i Hi. destruct (cut_lt i Hi). lia.
Qed.
Lemma lead_lt s : s < nodes -> lead super s < n.
Proof. intros Hs. destruct cut_facts as (_ & _ & _ & _ & C). destruct (cut_lt s Hs). unfold lead. rewrite C by lia. destruct lower; lia. Qed.
Lemma lead_has s : s < nodes -> block_has lower super s (lead super s).
Proof. intros Hs. apply has_iff; auto; [now apply lead_lt|]. destruct cut_facts as (_ & _ & _ & _ & C). destruct (cut_lt s Hs). unfold pos, lead. rewrite C by lia. destruct lower; lia. Qed.
Lemma lead_inj s t : s < nodes -> t < nodes -> lead super s = lead super t -> s = t.
Proof. intros Hs Ht E. apply (block_one s t (lead super s)); auto; [now apply lead_has|rewrite E; now apply lead_has]. Qed.
Lemma lead_pos s : s < nodes -> super.[s] = Z.of_nat (lead super s).
Proof. intros Hs. destruct cut_facts as (_ & _ & _ & _ & C). destruct (cut_lt s Hs). unfold lead. rewrite C by lia. destruct lower; lia. Qed.
Lemma nodes_le : nodes <= n.
Proof. destruct cut_facts as (C0 & C1 & C2 & _). assert (G : forall s, s <= nodes -> s <= cut s). { induction s; intros Hs; [lia|]. specialize (C2 s ltac:(lia)). specialize (IHs ltac:(lia)). lia. } specialize (G nodes ltac:(lia)). lia. Qed.

Lemma rd_node_wp s (Q : nat -> Prop) : s < nodes -> Q (lead super s) -> wp (rd_node super s) Q.
Proof.
  intros Hs HQ. unfold rd_node. destruct cut_facts as (_ & _ & _ & L & _). wp1. wp1; [lia|]. rewrite lead_pos by auto.
  destruct (Z.ltb_spec (Z.of_nat (lead super s)) 0); [lia|]. wp1. now rewrite Nat2Z.id.
Qed.

(** the arrays of block heads *)
Definition sup_ok (sup : list nat) : Prop := length sup = n /\ forall s v, s < nodes -> block_has lower super s v -> sup.[v] = lead super s.
End Cuts.

Lemma supers_lower_wp n nodes super (Q : list nat -> Prop) : cutsZ true n nodes super -> (forall sup, sup_ok true n nodes super sup -> Q sup) ->
  wp (supers_lower n nodes super) Q.
Proof.
  intros CU HQ. pose proof (cut_facts true n nodes super CU) as (C0 & C1 & C2 & C3 & C4). set (cu := cut true n super) in *.
  unfold supers_lower. wp1.
  apply (wp_for (fun i (st : list nat * nat) => let '(sup, c) := st in length sup = n /\ c = cu i /\ forall s v, s < i -> cu s <= v < cu (S s) -> sup.[v] = lead super s)); [lia| | |].
  - rewrite repeat_length. splits; auto. intros s v Hs. lia.
  - intros i [sup c] Hi (I1 & -> & I2). destruct (cut_lt true n nodes super CU i ltac:(lia)) as [L1 L2]. fold cu in L1, L2.
    apply (wp_while (fun st : list nat * nat => let '(sup, c) := st in length sup = n /\ cu i <= c <= cu (S i) /\ (forall s v, s < i -> cu s <= v < cu (S s) -> sup.[v] = lead super s) /\
       forall v, cu i <= v < c -> sup.[v] = lead super i) (fun '(sup, c) => n - c)).
    + splits; auto; intros; lia.
    + lia.
    + clear sup I1 I2. intros [sup c] (J1 & J2 & J3 & J4). wp1. wp1; [lia|]. wp1. wp1; [lia|]. rewrite !C4 by lia. wp1.
      destruct ((Z.of_nat (cu i) <=? Z.of_nat c) && (Z.of_nat c <? Z.of_nat (cu (S i))))%Z eqn:E.
      * wp1. wp1; [lia|]. wp1. wp1; [lia|]. wp1. rewrite upd_length. splits; auto; try lia.
        -- intros s v Hs Hv. rewrite aget_upd_ne; [now apply J3|]. assert (cu (S s) <= cu i) by (apply (mono_le cu nodes); [intros k Hk; specialize (C2 k Hk); lia|lia|lia]). lia.
        -- intros v Hv. rewrite aget_upd by lia. destruct (Nat.eqb_spec v c) as [->|]; [reflexivity|]. apply J4. lia.
      * splits; auto; [lia|]. intros s v Hs Hv. destruct (Nat.eq_dec s i) as [->|]; [apply J4; lia|apply J3; lia].
  - intros [sup c] (I1 & -> & I2). wp1. apply HQ. split; auto. intros s v Hs Hv. pose proof (has_lt true n nodes super CU s v Hs Hv).
    apply (has_iff true n nodes super CU) in Hv; auto.
Qed.

Lemma supers_upper_wp n nodes super (Q : list nat -> Prop) : cutsZ false n nodes super -> (forall sup, sup_ok false n nodes super sup -> Q sup) ->
  wp (supers_upper n nodes super) Q.
Proof.
  intros CU HQ. pose proof (cut_facts false n nodes super CU) as (C0 & C1 & C2 & C3 & C4). set (cu := cut false n super) in *.
  unfold supers_upper. wp1.
  apply (wp_for (fun i (st : list nat * Z) => let '(sup, c) := st in length sup = n /\ c = (Z.of_nat n - 1 - Z.of_nat (cu i))%Z /\
     forall s v, s < i -> v < n -> cu s <= n - 1 - v < cu (S s) -> sup.[v] = lead super s)); [lia| | |].
  - rewrite repeat_length. splits; auto; [lia|]. intros s v Hs. lia.
  - intros i [sup c] Hi (I1 & -> & I2). destruct (cut_lt false n nodes super CU i ltac:(lia)) as [L1 L2]. fold cu in L1, L2.
    apply (wp_while (fun st : list nat * Z => let '(sup, c) := st in length sup = n /\ exists e, c = (Z.of_nat n - 1 - Z.of_nat e)%Z /\ cu i <= e <= cu (S i) /\
       (forall s v, s < i -> v < n -> cu s <= n - 1 - v < cu (S s) -> sup.[v] = lead super s) /\
       forall v, v < n -> cu i <= n - 1 - v < e -> sup.[v] = lead super i) (fun '(sup, c) => Z.to_nat (c + 1))).
    + split; auto. exists (cu i). splits; auto; intros; lia.
    + lia.
    + clear sup I1 I2. intros [sup c] (J1 & e & -> & J2 & J3 & J4). wp1. wp1; [lia|]. wp1. wp1; [lia|]. rewrite !C4 by lia. wp1.
      match goal with |- context [if ?b then _ else _] => destruct b eqn:E end.
      * wp1. wp1; [lia|]. wp1. apply P_Tree.wrZ_wp; [lia|lia|]. wp1. rewrite upd_length. split; [|lia]. split; auto. exists (S e). splits; auto; try lia.
        -- intros s v Hs Hv Hc. rewrite aget_upd_ne; [now apply J3|]. assert (cu (S s) <= cu i) by (apply (mono_le cu nodes); [intros k Hk; specialize (C2 k Hk); lia|lia|lia]). lia.
        -- intros v Hv Hc. rewrite aget_upd by lia. destruct (Nat.eqb_spec v (Z.to_nat (Z.of_nat n - 1 - Z.of_nat e))) as [->|]; [reflexivity|]. apply J4; auto. lia.
      * splits; auto; [lia|]. intros s v Hs Hv Hc. destruct (Nat.eq_dec s i) as [->|]; [apply J4; lia|apply J3; auto; lia].
  - intros [sup c] (I1 & -> & I2). wp1. apply HQ. split; auto. intros s v Hs Hv. pose proof (has_lt false n nodes super CU s v Hs Hv).
    apply (has_iff false n nodes super CU) in Hv; auto.
Qed.

(** * Targets *)
Section Targets.
Variables (lower : bool) (n nodes : nat) (super : list Z) (sup : list nat).
Hypothesis CU : cutsZ lower n nodes super.
Hypothesis SU : sup_ok lower n nodes super sup.

Lemma block_targets_wp Li off ps (Q : list nat -> Prop) : (forall p, In p ps -> p < length Li /\ Li.[p] < n) ->
  Q (map (fun p => sup.[Li.[p]] + off) ps) -> wp (block_targets Li sup off ps) Q.
Proof.
  intros HP HQ. destruct SU as [S1 _]. unfold block_targets.
  apply (wp_foreach (fun pre acc => acc = map (fun p => sup.[Li.[p]] + off) pre)); [reflexivity| |intros acc ->; auto].
  intros pre p post acc E ->. destruct (HP p) as [H1 H2]; [rewrite E; apply in_app_iff; right; now left|]. wp1. wp1; [lia|]. wp1. wp1; [lia|]. wp1.
  now rewrite map_app.
Qed.

Definition positions (Lp : list nat) (c : nat) : list nat := if lower then seq (S Lp.[c]) (Lp.[S c] - S Lp.[c]) else rev (seq Lp.[c] (Lp.[S c] - Lp.[c])).

Lemma positions_In Lp c p : Lp.[c] <= Lp.[S c] -> (In p (positions Lp c) <-> (if lower then Lp.[c] < p else Lp.[c] <= p) /\ p < Lp.[S c]).
Proof. clear CU SU. intros H. unfold positions. destruct lower; [|rewrite <- in_rev]; rewrite in_seq; lia. Qed.

Lemma bn_positions_wp Lp c (Q : list nat -> Prop) : S c < length Lp -> Q (positions Lp c) -> wp (bn_positions lower Lp c) Q.
Proof. clear CU SU. intros H HQ. unfold bn_positions. unfold positions in HQ. destruct lower; wp1; (wp1; [lia|]); wp1; (wp1; [lia|]); wp1; auto. Qed.

Definition tg (Lp Li : list nat) (c : nat) : list nat := map (fun p => sup.[Li.[p]]) (positions Lp c).

Lemma tg_In Lp Li s t' : wf_csc n Lp Li -> (lower = true -> diag_first n Lp Li) -> s < nodes ->
  (In t' (tg Lp Li (lead super s)) /\ t' <> lead super s <-> exists t, t' = lead super t /\ lead_edge lower nodes Lp Li super s t).
Proof.
  intros W DF Hs. pose proof W as (W1 & W2 & W3 & W4 & W5). set (c := lead super s). assert (Hc : c < n) by (apply (lead_lt lower n nodes); auto).
  pose proof (W3 c Hc) as Hle. destruct SU as [S1 S2]. unfold tg. rewrite in_map_iff. split.
  - intros [(p & <- & Hp) Hne]. apply positions_In in Hp; auto. destruct Hp as [Hp1 Hp2].
    assert (Hp3 : Lp.[c] <= p < Lp.[S c]) by (destruct lower; lia). assert (Hv : Li.[p] < n).
    { apply W5. assert (Lp.[S c] <= Lp.[n]) by (apply (mono_le (aget Lp) n); auto). lia. }
    destruct (block_of lower n nodes super CU _ Hv) as (t & Ht & Hb). exists t. rewrite (S2 t _ Ht Hb) in *. split; auto.
    unfold lead_edge. splits; auto; [intros ->; now apply Hne|]. exists Li.[p]. split; auto. exists p. split; auto.
  - intros (t & -> & _ & Ht & Hne & v & (p & Hp & <-) & Hb). split.
    + exists p. split; [now apply S2|]. apply positions_In; auto. fold c in Hp. split; [|lia]. destruct lower eqn:EL; [|lia].
      destruct (Nat.eq_dec p Lp.[c]) as [->|]; [|lia]. exfalso. apply Hne. destruct (DF eq_refl c Hc) as (_ & D & _). rewrite D in Hb.
      apply (block_one true n nodes super CU s t c); auto. apply (lead_has true n nodes super CU); auto.
    + intros E. apply Hne. symmetry. apply (lead_inj lower n nodes super CU); auto.
Qed.

Lemma tg_lead Lp Li c t' : wf_csc n Lp Li -> c < n -> In t' (tg Lp Li c) -> exists t, t < nodes /\ t' = lead super t.
Proof.
  intros W Hc Ht. pose proof W as (W1 & W2 & W3 & W4 & W5). pose proof (W3 c Hc) as Hle. destruct SU as [S1 S2]. unfold tg in Ht. apply in_map_iff in Ht.
  destruct Ht as (p & <- & Hp). apply positions_In in Hp; auto. assert (Hv : Li.[p] < n).
  { apply W5. assert (Lp.[S c] <= Lp.[n]) by (apply (mono_le (aget Lp) n); auto). lia. }
  destruct (block_of lower n nodes super CU _ Hv) as (t & H1 & H2). exists t. split; auto.
Qed.

Lemma tg_wp Lp Li off c (Q : list nat -> Prop) : wf_csc n Lp Li -> c < n -> Q (map (fun t => t + off) (tg Lp Li c)) ->
  wp (ps <- bn_positions lower Lp c ;; block_targets Li sup off ps) Q.
Proof.
  intros W Hc HQ. pose proof W as (W1 & W2 & W3 & W4 & W5). wp1. apply bn_positions_wp; [lia|]. apply block_targets_wp.
  - intros p Hp. apply positions_In in Hp; [|now apply W3]. assert (Lp.[S c] <= Lp.[n]) by (apply (mono_le (aget Lp) n); auto). split; [lia|]. apply W5. lia.
  - unfold tg in HQ. rewrite map_map in HQ. exact HQ.
Qed.

(** edges of a triangular matrix lead to later blocks *)
Lemma lead_edge_lt Lp Li s t : tri_of lower n Lp Li -> lead_edge lower nodes Lp Li super s t -> s < t.
Proof.
  clear SU. intros TR (Hs & Ht & Hne & v & He & Hb). apply not_ge. intros G. assert (L : t < s) by lia. clear G.
  pose proof (has_lt lower n nodes super CU t v Ht Hb) as Hv. pose proof (lead_lt lower n nodes super CU s Hs) as Hc.
  pose proof (lead_has lower n nodes super CU s Hs) as Hh. apply (has_iff lower n nodes super CU) in Hh, Hb; auto.
  pose proof (cut_mono lower n nodes super CU (S t) s ltac:(lia) ltac:(lia)).
  assert (Hne2 : lead super s <> v) by (intros E; rewrite <- E in Hb; lia).
  assert (E : edge n Lp Li (lead super s) v) by (split; [auto|split; auto]). unfold tri_of in TR. unfold pos in *. destruct lower.
  - destruct TR as [_ TR]. apply TR in E. lia.
  - apply TR in E. lia.
Qed.
End Targets.
