(** Correctness of tree_post_order, continued: the depth first search. *)
From Coq Require Import ZifyBool ZifyNat.
From Verif Require Import Base Lib Lib2 Lib3 Spec Check M_Tree P_Tree L_Post.

Lemma firstn_upd_S (l : list nat) k v : k < length l -> firstn (S k) (upd l k v) = firstn k l ++ [v].
Proof. revert k. induction l as [|x l IH]; intros [|k] Hk; simpl in *; try lia; auto. f_equal. apply IH. lia. Qed.

Lemma NoDup_app_inv {A} (l L : list A) : NoDup (l ++ L) -> NoDup l /\ NoDup L /\ forall x, In x l -> ~ In x L.
Proof.
  induction l as [|y l IH]; simpl; intros H; [splits; auto; constructor|]. apply NoDup_cons_iff in H. destruct H as [A1 B]. destruct (IH B) as (C & D & E).
  rewrite in_app_iff in A1. splits; auto; [constructor; tauto|]. intros x [->|Hx]; auto.
Qed.

Section PostOrder.
Variable ch : nat -> list nat.

(** the post-order of the tree below a node, and of a list of trees *)
Inductive PO : nat -> list nat -> Prop :=
| PO_node v L : POs (ch v) L -> PO v (L ++ [v])
with POs : list nat -> list nat -> Prop :=
| POs_nil : POs [] []
| POs_cons c cs l L : PO c l -> POs cs L -> POs (c :: cs) (l ++ L).

Scheme PO_ind2 := Induction for PO Sort Prop
with POs_ind2 := Induction for POs Sort Prop.
Combined Scheme PO_mut from PO_ind2, POs_ind2.

Lemma PO_length v l : PO v l -> 1 <= length l.
Proof. intros H. destruct H. rewrite app_length. simpl. lia. Qed.

(** ** Structure of post-orders *)

Lemma PO_blocks :
  (forall v l, PO v l -> forall u, In u l -> exists a b c, l = a ++ b ++ c /\ PO u b) /\
  (forall cs L, POs cs L -> forall u, In u L -> exists a b c, L = a ++ b ++ c /\ PO u b).
Proof.
  apply PO_mut.
  - intros v L HL IH u Hu. apply in_app_iff in Hu. destruct Hu as [Hu|[<-|[]]].
    + destruct (IH u Hu) as (a & b & c & -> & Hb). exists a, b, (c ++ [v]). rewrite <- !app_assoc. auto.
    + exists [], (L ++ [v]), []. rewrite app_nil_r. split; auto. now constructor.
  - intros u [].
  - intros c cs l L Hc IHc HL IHL u Hu. apply in_app_iff in Hu. destruct Hu as [Hu|Hu].
    + destruct (IHc u Hu) as (a & b & d & -> & Hb). exists a, b, (d ++ L). rewrite <- !app_assoc. auto.
    + destruct (IHL u Hu) as (a & b & d & -> & Hb). exists (l ++ a), b, d. rewrite <- !app_assoc. auto.
Qed.

Lemma PO_last v l : PO v l -> exists L, l = L ++ [v] /\ POs (ch v) L.
Proof. intros H. destruct H. eauto. Qed.

Lemma POs_app cs1 cs2 L : POs (cs1 ++ cs2) L -> exists L1 L2, L = L1 ++ L2 /\ POs cs1 L1 /\ POs cs2 L2.
Proof.
  revert L. induction cs1 as [|c cs1 IH]; intros L H; simpl in H.
  - exists [], L. splits; auto. constructor.
  - inversion H as [|c' cs' l L' Hc HL]; subst. destruct (IH L' HL) as (L1 & L2 & -> & A & B). exists (l ++ L1), L2. rewrite app_assoc. splits; auto. now constructor.
Qed.

Lemma POs_snoc cs L c l : POs cs L -> PO c l -> POs (cs ++ [c]) (L ++ l).
Proof.
  intros H Hc. revert L H. induction cs as [|c' cs IH]; intros L H; inversion H; subst; simpl.
  - rewrite <- (app_nil_r l). constructor; auto.
  - rewrite <- app_assoc. constructor; auto.
Qed.

Lemma PO_in v l : PO v l -> In v l.
Proof. intros H. destruct H. apply in_app_iff. right. now left. Qed.

Lemma POs_in cs L c : POs cs L -> In c cs -> In c L.
Proof.
  revert L. induction cs as [|c' cs IH]; intros L H Hc; [destruct Hc|]. inversion H as [|? ? l L' H1 H2]; subst. apply in_app_iff.
  destruct Hc as [->|Hc]; [left; eapply PO_in; exact H1|right; exact (IH _ H2 Hc)].
Qed.

Lemma POs_before cs L c1 c2 : POs cs L -> before c1 c2 cs -> before c1 c2 L.
Proof.
  intros H (a & b & c & ->). apply POs_app in H. destruct H as (L1 & L2 & -> & _ & H). apply before_app_r.
  inversion H as [|? ? l L' Hc HL]; subst. apply before_app; [eapply PO_in; eauto|]. eapply POs_in; [exact HL|]. apply in_app_iff. right. now left.
Qed.

Lemma PO_fun :
  (forall v l, PO v l -> forall l', PO v l' -> l = l') /\ (forall cs L, POs cs L -> forall L', POs cs L' -> L = L').
Proof.
  apply PO_mut.
  - intros v L HL IH l' H. apply PO_last in H. destruct H as (L' & -> & H). f_equal. auto.
  - intros L' H. now inversion H.
  - intros c cs l L Hc IHc HL IHL L' H. inversion H; subst. f_equal; auto.
Qed.
End PostOrder.

Section Dfs.
Variables (n : nat) (ch : nat -> list nat) (Next : list Z).
Hypothesis LN : length Next = n.

Definition dloop (fuel : nat) (st : list nat * nat * list nat * list Z) :=
  while_ fuel
    (fun '(stk, k, Post, Head) => Ok (match stk with [] => false | _ => true end))
    (fun '(stk, k, Post, Head) =>
       match stk with
       | [] => Err OOB
       | p :: rest =>
           j <- rd Head p ;;
           if (j =? EMPTY)%Z then Post <- wr Post k p ;; Ok (rest, S k, Post, Head)
           else x <- rdZ Next j ;; Head <- wr Head p x ;;
                if length stk <? n then Ok (Z.to_nat j :: stk, k, Post, Head) else Err OOB
       end) st.

Lemma dloop_pop f p rest k Post Head : p < length Head -> Head.[p] = EMPTY -> k < length Post ->
  dloop (S f) (p :: rest, k, Post, Head) = dloop f (rest, S k, upd Post k p, Head).
Proof. intros H1 H2 H3. unfold dloop. cbn [while_ bind]. rewrite rd_ok by auto. cbn [bind]. rewrite H2, Z.eqb_refl. rewrite wr_ok by auto. reflexivity. Qed.

Lemma dloop_push f p rest k Post Head j : p < length Head -> Head.[p] = Z.of_nat j -> j < n -> S (length rest) < n ->
  dloop (S f) (p :: rest, k, Post, Head) = dloop f (j :: p :: rest, k, Post, upd Head p Next.[j]).
Proof.
  intros H1 H2 H3 H4. unfold dloop. cbn [while_ bind]. rewrite rd_ok by auto. cbn [bind]. rewrite H2. destruct (Z.eqb_spec (Z.of_nat j) EMPTY); [unfold EMPTY in *; lia|].
  unfold rdZ. destruct (Z.ltb_spec (Z.of_nat j) 0); [lia|]. rewrite Nat2Z.id, rd_ok by lia. cbn [bind]. rewrite wr_ok by auto. cbn [bind length].
  destruct (Nat.ltb_spec (S (length rest)) n); [|lia]. reflexivity.
Qed.

Definition fresh (Head : list Z) (l : list nat) : Prop := forall u, In u l -> u < n /\ lst Next Head.[u] (ch u).

Lemma run :
  (forall v l, PO ch v l -> forall rest k Post Head f, fresh Head l -> NoDup l -> length Head = n + 1 -> length rest + length l <= n -> k + length l <= length Post ->
     exists Post' Head', dloop (2 * length l - 1 + f) (v :: rest, k, Post, Head) = dloop f (rest, k + length l, Post', Head') /\
       length Post' = length Post /\ firstn (k + length l) Post' = firstn k Post ++ l /\ length Head' = n + 1 /\ forall u, ~ In u l -> Head'.[u] = Head.[u]) /\
  (forall cs L, POs ch cs L -> forall v rest k Post Head f, v < n -> lst Next Head.[v] cs -> ~ In v L -> fresh Head L -> NoDup L -> length Head = n + 1 ->
     length rest + 1 + length L <= n -> k + length L <= length Post ->
     exists Post' Head', dloop (2 * length L + f) (v :: rest, k, Post, Head) = dloop f (v :: rest, k + length L, Post', Head') /\
       length Post' = length Post /\ firstn (k + length L) Post' = firstn k Post ++ L /\ length Head' = n + 1 /\ Head'.[v] = EMPTY /\ forall u, ~ In u L -> u <> v -> Head'.[u] = Head.[u]).
Proof.
  apply PO_mut.
  - intros v L HL IH rest k Post Head f HF HN HH HR HK. rewrite app_length in *. simpl in HR, HK.
    assert (HvL : ~ In v L) by (apply NoDup_remove_2 in HN; now rewrite app_nil_r in HN).
    assert (HNL : NoDup L) by (apply NoDup_remove_1 in HN; now rewrite app_nil_r in HN).
    destruct (HF v) as [Hv Hlv]; [apply in_app_iff; right; now left|].
    destruct (IH v rest k Post Head (S f)) as (P1 & H1 & E1 & E2 & E3 & E4 & E5 & E6); auto; try lia.
    { intros u Hu. apply HF. apply in_app_iff. now left. }
    exists (upd P1 (k + length L) v), H1. replace (2 * (length L + length [v]) - 1 + f) with (2 * length L + S f) by (simpl; lia). rewrite E1. rewrite dloop_pop by (auto; lia).
    replace (k + (length L + length [v])) with (S (k + length L)) by (simpl; lia). rewrite upd_length. splits; auto.
    + rewrite firstn_upd_S by lia. rewrite E3. now rewrite app_assoc.
    + intros u Hu. rewrite in_app_iff in Hu. apply E6; [tauto|]. intros ->. apply Hu. right. now left.
  - intros v rest k Post Head f Hv Hl _ _ _ HH HR HK. exists Post, Head. simpl in *. rewrite Nat.add_0_r, app_nil_r. splits; auto.
  - intros c cs l L Hc IHc HL IHL v rest k Post Head f Hv Hl HvL HF HN HH HR HK. destruct Hl as [Ec Hl]. rewrite app_length in *.
    pose proof (PO_length ch c l Hc) as Hlen.
    assert (Hcl : In c l) by (destruct Hc; apply in_app_iff; right; now left).
    destruct (NoDup_app_inv _ _ HN) as (HNl & HN' & Hdis).
    destruct (HF c) as [Hcn _]; [apply in_app_iff; now left|].
    destruct (IHc (v :: rest) k Post (upd Head v Next.[c]) (2 * length L + f)) as (P1 & H1 & E1 & E2 & E3 & E4 & E5); auto; try (rewrite ?upd_length; simpl; lia).
    { intros u Hu. destruct (HF u) as [Hu1 Hu2]; [apply in_app_iff; now left|]. split; auto. rewrite aget_upd_ne; auto. intros ->. apply HvL, in_app_iff. now left. }
    destruct (IHL v rest (k + length l) P1 H1 f) as (P2 & H2 & F1 & F2 & F3 & F4 & F5 & F6); auto; try lia.
    { rewrite E5 by (intros Hx; apply HvL, in_app_iff; now left). rewrite aget_upd_eq by lia. auto. }
    { intros Hx; apply HvL, in_app_iff; now right. }
    { intros u Hu. destruct (HF u) as [Hu1 Hu2]; [apply in_app_iff; now right|]. split; auto. rewrite E5 by (intros Hx; apply (Hdis u); auto). rewrite aget_upd_ne; auto. intros ->. apply HvL, in_app_iff. now right. }
    exists P2, H2. rewrite Nat.add_assoc. splits; auto; try lia.
    + replace (2 * (length l + length L) + f) with (S (2 * length l - 1 + (2 * length L + f))) by lia. rewrite (dloop_push _ v rest k Post Head c) by (auto; lia). rewrite E1. exact F1.
    + rewrite F3, E3. now rewrite app_assoc.
    + intros u Hu Hne. rewrite F6, E5 by (auto; intros Hx; apply Hu, in_app_iff; auto). apply aget_upd_ne. auto.
Qed.

End Dfs.
