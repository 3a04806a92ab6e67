(** Liu's algorithm: the union-find forest over the processed edges. *)
From Coq Require Import ZifyBool ZifyNat.
From Verif Require Import Base Lib Lib2 Lib3 Spec SpecETree M_ETree P_Tree.

Definition adj (E : nat -> nat -> Prop) (x y : nat) : Prop := E x y \/ E y x.

Inductive conn (E : nat -> nat -> Prop) : nat -> nat -> Prop :=
| conn_refl x : conn E x x
| conn_step x y z : adj E x y -> conn E y z -> conn E x z.

(** a path of at least one edge whose inner nodes are below [b] *)
Inductive thru (E : nat -> nat -> Prop) (b : nat) : nat -> nat -> Prop :=
| thru_edge x y : adj E x y -> thru E b x y
| thru_step x y z : adj E x y -> y < b -> thru E b y z -> thru E b x z.

Lemma adj_sym E x y : adj E x y -> adj E y x.
Proof. unfold adj. tauto. Qed.

Lemma conn_trans E x y z : conn E x y -> conn E y z -> conn E x z.
Proof. induction 1; auto. intros. econstructor; eauto. Qed.

Lemma conn_one E x y : adj E x y -> conn E x y.
Proof. intros. econstructor; eauto. constructor. Qed.

Lemma conn_sym E x y : conn E x y -> conn E y x.
Proof. induction 1; [constructor|]. eapply conn_trans; eauto. apply conn_one. now apply adj_sym. Qed.

Lemma conn_mono (E E' : nat -> nat -> Prop) x y : (forall a b, E a b -> E' a b) -> conn E x y -> conn E' x y.
Proof. intros HE. induction 1; [constructor|]. econstructor; eauto. destruct H; [left|right]; auto. Qed.

Lemma thru_mono (E E' : nat -> nat -> Prop) b b' x y : (forall u v, E u v -> E' u v) -> b <= b' -> thru E b x y -> thru E' b' x y.
Proof. intros HE Hb. induction 1 as [x y H|x y z H H1 H2 IH]; [apply thru_edge|eapply thru_step; eauto; [|lia]]; destruct H; [left|right|left|right]; auto. Qed.

Lemma thru_trans E b x y z : thru E b x y -> y < b -> thru E b y z -> thru E b x z.
Proof. induction 1; intros; [eapply thru_step; eauto|]. eapply thru_step; eauto. Qed.

Lemma thru_sym E b x y : thru E b x y -> thru E b y x.
Proof.
  induction 1 as [x y H|x y z H H1 H2 IH]; [apply thru_edge; now apply adj_sym|].
  eapply thru_trans; eauto. apply thru_edge. now apply adj_sym.
Qed.

Lemma thru_conn E b x y : thru E b x y -> conn E x y.
Proof. induction 1; [now apply conn_one|]. econstructor; eauto. Qed.

Lemma thru_split E b x y : thru E (S b) x y -> thru E b x y \/ (thru E b x b /\ thru E b b y).
Proof.
  induction 1 as [x y H|x y z H H1 H2 IH]; [left; now apply thru_edge|]. destruct (Nat.eq_dec y b) as [->|Hne].
  - right. split; [now apply thru_edge|]. tauto.
  - destruct IH as [IH|[I1 I2]]; [left|right; split; auto]; eapply thru_step; eauto; lia.
Qed.

(** ** The fill path theorem *)

Lemma fill_sym A x y : fill A x y -> fill A y x.
Proof. induction 1; [apply fill_entry; [tauto|auto]|]. eapply fill_elim; eauto. Qed.

Lemma fill_thru A x y : fill A x y -> thru A (Nat.min x y) x y.
Proof.
  induction 1 as [x y H Hne|j x y H1 I1 H2 I2 L1 L2 Hne]; [now apply thru_edge|].
  rewrite Nat.min_l in I1, I2 by lia. apply thru_trans with j; [|lia|].
  - apply thru_sym. apply (thru_mono A A j); auto. lia.
  - apply (thru_mono A A j); auto. lia.
Qed.

Lemma thru_fill A b : forall x y, thru A b x y -> b <= x -> b <= y -> x <> y -> fill A x y.
Proof.
  induction b as [|b IH]; intros x y H Hx Hy Hne.
  - inversion H; subst; [now apply fill_entry|lia].
  - apply thru_split in H. destruct H as [H|[H1 H2]]; [apply IH; auto; lia|].
    apply fill_elim with b; try lia; [|apply IH; auto; lia]. apply fill_sym. apply IH; auto; lia.
Qed.

Lemma fill_iff A i k : i < k -> fill A i k <-> thru A (S i) i k.
Proof.
  intros H. split.
  - intros F. apply fill_thru in F. eapply thru_mono; [| |exact F]; auto. lia.
  - intros T. apply (thru_fill A i); try lia. apply thru_split in T. tauto.
Qed.

(** ** The invariant *)

(** rows below [K] were started; [E] are the edges processed so far *)
Definition Inv (K : nat) (E : nat -> nat -> Prop) (par anc : list Z) : Prop :=
  (forall x y, E x y -> x < y /\ y < K) /\
  forall v, v < K ->
    (anc.[v] = (-1)%Z <-> par.[v] = (-1)%Z) /\
    (par.[v] = (-1)%Z -> forall u, conn E v u -> u <= v) /\
    (par.[v] <> (-1)%Z -> exists k, par.[v] = Z.of_nat k /\ v < k /\ k < K /\ thru E (S v) v k /\ forall j, v < j -> thru E (S v) v j -> k <= j) /\
    (anc.[v] <> (-1)%Z -> exists a, anc.[v] = Z.of_nat a /\ v < a /\ a < K /\ conn E v a).

Lemma Inv_ext K (E E' : nat -> nat -> Prop) par anc : (forall x y, E x y <-> E' x y) -> Inv K E par anc -> Inv K E' par anc.
Proof.
  intros HE [H1 H2]. assert (M : forall x y, E x y -> E' x y) by (intros; now apply HE). assert (M' : forall x y, E' x y -> E x y) by (intros; now apply HE).
  split; [intros x y Hxy; apply H1; auto|]. intros v Hv. destruct (H2 v Hv) as (A & B & C & D). splits; auto.
  - intros Hp u Hu. apply B; auto. apply (conn_mono E' E); auto.
  - intros Hp. destruct (C Hp) as (k & C1 & C2 & C3 & C4 & C5). exists k. splits; auto; [apply (thru_mono E E' (S v)); auto|]. intros j Hj Ht. apply C5; auto. apply (thru_mono E' E (S v)); auto.
  - intros Ha. destruct (D Ha) as (a & D1 & D2 & D3 & D4). exists a. splits; auto. apply (conn_mono E E'); auto.
Qed.

Lemma conn_none (E : nat -> nat -> Prop) x : (forall y, ~ E x y /\ ~ E y x) -> forall u, conn E x u -> u = x.
Proof. intros H u Hu. inversion Hu as [|a b c [Q|Q] R]; subst; auto; exfalso; firstorder. Qed.

Lemma Inv_new K E par anc par' anc' : Inv K E par anc -> (forall v, v < K -> par'.[v] = par.[v] /\ anc'.[v] = anc.[v]) ->
  par'.[K] = (-1)%Z -> anc'.[K] = (-1)%Z -> Inv (S K) E par' anc'.
Proof.
  intros [H1 H2] H3 H4 H5. split; [intros x y H; destruct (H1 x y H); lia|]. intros v Hv. destruct (Nat.eq_dec v K) as [->|Hne].
  - rewrite H4, H5. splits; try tauto. intros _ u Hu. apply conn_none in Hu; [lia|]. intros y. split; intros Hy; apply H1 in Hy; lia.
  - destruct (H3 v ltac:(lia)) as [-> ->]. destruct (H2 v ltac:(lia)) as (A & B & C & D). splits; auto.
    + intros Hp. destruct (C Hp) as (k & C1 & C2 & C3 & C4 & C5). exists k. splits; auto.
    + intros Ha. destruct (D Ha) as (a & D1 & D2 & D3 & D4). exists a. splits; auto.
Qed.

Definition add_edge (E : nat -> nat -> Prop) (i k x y : nat) : Prop := E x y \/ (x = i /\ y = k).

Lemma conn_add E i k x y : conn (add_edge E i k) x y -> conn E x y \/ conn E x i \/ conn E x k.
Proof.
  intros H. apply conn_sym in H. induction H as [y|y z x H1 H2 IH]; [left; constructor|].
  destruct IH as [IH|IH]; [|tauto]. destruct H1 as [[H1|[-> ->]]|[H1|[-> ->]]].
  - left. eapply conn_trans; eauto. apply conn_one. now right.
  - tauto.
  - left. eapply conn_trans; eauto. apply conn_one. now left.
  - tauto.
Qed.

Lemma thru_add E i k b x j : b <= k -> x <> k -> thru (add_edge E i k) b x j -> thru E b x j \/ j = k.
Proof.
  intros Hb Hx H. induction H as [x y H|x y z H H1 H2 IH].
  - destruct H as [[H|[-> ->]]|[H|[-> ->]]]; auto; [left; apply thru_edge; now left|left; apply thru_edge; now right|congruence].
  - destruct (IH ltac:(lia)) as [I|I]; [|auto]. left. destruct H as [[H|[-> ->]]|[H|[-> ->]]]; [|lia| |congruence]; eapply thru_step; eauto; [now left|now right].
Qed.

Lemma conn_thru (E E' : nat -> nat -> Prop) v i k b : (forall x y, E x y -> E' x y) -> conn E v i -> (forall u, conn E v u -> u < b) -> adj E' i k -> thru E' b v k.
Proof.
  intros HE H. induction H as [v|v y i H1 H2 IH]; intros Hb Ha; [now apply thru_edge|].
  eapply thru_step; [destruct H1; [left|right]; eauto|apply Hb; now apply conn_one|]. apply IH; auto. intros u Hu. apply Hb. econstructor; eauto.
Qed.

(** what climbing from [i0] towards row [k] may do *)
Definition touches (E : nat -> nat -> Prop) (k i0 : nat) (par anc par' anc' : list Z) : Prop :=
  length par' = length par /\ length anc' = length anc /\
  forall v, (par'.[v] = par.[v] /\ anc'.[v] = anc.[v]) \/
    (conn E i0 v /\ v < k /\ anc'.[v] = Z.of_nat k /\ par'.[v] = if (par.[v] =? -1)%Z then Z.of_nat k else par.[v]).

Definition climbed (E : nat -> nat -> Prop) (k i0 : nat) (par anc par' anc' : list Z) : Prop :=
  touches E k i0 par anc par' anc' /\ forall v, v < k -> conn E i0 v -> par.[v] = (-1)%Z -> par'.[v] <> (-1)%Z.

Lemma climbed_inv E k i0 par anc par' anc' : Inv (S k) E par anc -> i0 < k -> climbed E k i0 par anc par' anc' -> Inv (S k) (add_edge E i0 k) par' anc'.
Proof.
  intros [H1 H2] Hi [(_ & _ & T) F]. split.
  { intros x y [H|[-> ->]]; [now apply H1|lia]. }
  assert (M : forall x y, E x y -> add_edge E i0 k x y) by (intros; now left).
  assert (N : forall x, conn E i0 x -> conn (add_edge E i0 k) x k).
  { intros x Hx. apply conn_trans with i0; [apply conn_sym; apply (conn_mono E); auto|]. apply conn_one. left. right. auto. }
  intros v Hv. destruct (H2 v Hv) as (A & B & C & D).
  assert (X : par'.[v] = (-1)%Z -> par.[v] = (-1)%Z).
  { destruct (T v) as [[-> _]|(_ & _ & _ & ->)]; auto. destruct (Z.eqb_spec par.[v] (-1)); auto. }
  splits.
  - destruct (T v) as [[-> ->]|(_ & _ & -> & ->)]; auto. destruct (Z.eqb_spec par.[v] (-1)); lia.
  - intros Hp u Hu. assert (Hu' : u <= k).
    { clear -Hu H1 Hi Hv. destruct (Nat.le_gt_cases u k); auto. exfalso. apply conn_sym in Hu. apply conn_none in Hu; [lia|]. intros y. split; intros [Q|Q]; try (apply H1 in Q); lia. }
    destruct (Nat.eq_dec v k) as [->|Hne]; [lia|]. destruct (conn_add _ _ _ _ _ Hu) as [Q|[Q|Q]].
    + apply B; auto.
    + exfalso. apply (F v); auto; [lia|now apply conn_sym].
    + apply B in Q; auto. lia.
  - intros Hp. destruct (Z.eq_dec par.[v] (-1)) as [E0|E0].
    + destruct (T v) as [[T1 _]|(T1 & T2 & T3 & T4)]; [congruence|]. rewrite E0 in T4. cbn in T4. exists k. splits; auto; try lia.
      * apply (conn_thru E) with i0; auto; [now apply conn_sym| |left; right; auto]. intros u Hu. apply B in Hu; auto. lia.
      * intros j Hj Ht. apply thru_add in Ht; try lia. destruct Ht as [Ht|Ht]; [|lia]. apply thru_conn in Ht. apply B in Ht; auto. lia.
    + assert (EP : par'.[v] = par.[v]).
      { destruct (T v) as [[-> _]|(_ & _ & _ & ->)]; auto. destruct (Z.eqb_spec par.[v] (-1)); congruence. }
      rewrite EP. destruct (C E0) as (q & C1 & C2 & C3 & C4 & C5). exists q. splits; auto; [apply (thru_mono E _ (S v)); auto|].
      intros j Hj Ht. apply thru_add in Ht; try lia. destruct Ht as [Ht|Ht]; [auto|lia].
  - intros Ha. destruct (T v) as [[_ T1]|(T1 & T2 & T3 & _)].
    + rewrite T1 in *. destruct (D Ha) as (a & D1 & D2 & D3 & D4). exists a. splits; auto. now apply (conn_mono E).
    + exists k. splits; auto; lia.
Qed.

Lemma climb_wp n k i0 par anc E : k < n -> length par = n -> length anc = n -> Inv (S k) E par anc ->
  wp (climb n k i0 (par, anc)) (fun st => if i0 <? k then climbed E k i0 par anc (fst st) (snd st) else st = (par, anc)).
Proof.
  intros Hk LP LA [I1 I2]. unfold climb. wp1. cbn [fst snd].
  assert (G : forall fuel i p a, conn E i0 i -> i <= k -> i0 < k -> k - i < fuel -> (forall v, i <= v -> p.[v] = par.[v] /\ a.[v] = anc.[v]) -> touches E k i0 par anc p a ->
     (forall v, v < k -> conn E i0 v -> par.[v] = (-1)%Z -> i <= v \/ p.[v] <> (-1)%Z) ->
     wp (while_ (S fuel)
    (fun '(i, parents, ancestor) => Ok (negb (i =? -1) && (i <? Z.of_nat k))%Z)
    (fun '(i, parents, ancestor) =>
       inext <- rdZ ancestor i ;;
       ancestor <- wrZ ancestor i (Z.of_nat k) ;;
       parents <- (if (inext =? -1)%Z then wrZ parents i (Z.of_nat k) else Ok parents) ;;
       Ok (inext, parents, ancestor)) (Z.of_nat i, p, a)) (fun r => let '(_, p, a) := r in climbed E k i0 par anc p a)).
  { induction fuel as [|fuel IH]; intros i p a Hc Hik Hi0 Hf Hsame HT HM; [lia|]. cbn [while_]. wp1. wp1.
    destruct (Z.eqb_spec (Z.of_nat i) (-1)); [lia|]. destruct (Z.ltb_spec (Z.of_nat i) (Z.of_nat k)) as [Hlt|Hge]; cbn [negb andb].
    2:{ wp1. split; auto. intros v Hv Hv' Hp. destruct (HM v Hv Hv' Hp); [lia|auto]. }
    destruct HT as (T1 & T2 & T3). destruct (Hsame i (le_n _)) as [S1 S2].
    wp1. wp1. apply rdZ_wp; [lia|lia|]. rewrite Nat2Z.id, S2. wp1. apply wrZ_wp; [lia|lia|]. rewrite Nat2Z.id. wp1.
    destruct (I2 i ltac:(lia)) as (A & B & C & D). destruct (Z.eqb_spec anc.[i] (-1)) as [E0|E0].
    - apply wrZ_wp; [lia|lia|]. rewrite Nat2Z.id. wp1. rewrite E0. destruct fuel as [|fuel]; [lia|]. cbn [while_]. wp1. wp1. cbn [negb andb Z.eqb Z.opp Pos.eqb]. wp1.
      assert (E1 : par.[i] = (-1)%Z) by tauto. split; [split; [now rewrite upd_length|]; split; [now rewrite upd_length|]|].
      + intros v. destruct (Nat.eq_dec v i) as [->|Hne].
        * right. rewrite !aget_upd_eq by lia. rewrite E1. splits; auto; lia.
        * rewrite !aget_upd_ne by lia. apply T3.
      + intros v Hv Hv' Hp. destruct (Nat.eq_dec v i) as [->|Hne]; [rewrite aget_upd_eq by lia; lia|]. rewrite aget_upd_ne by lia.
        destruct (HM v Hv Hv' Hp) as [Hle|]; auto. exfalso. assert (Hcv : conn E i v) by (apply conn_trans with i0; auto; now apply conn_sym). apply B in Hcv; auto. lia.
    - wp1. destruct (D E0) as (q & D1 & D2 & D3 & D4). rewrite D1.
      assert (Hcq : conn E i0 q) by (eapply conn_trans; eauto).
      destruct fuel as [|fuel']; [|].
      + lia.
      + apply IH; auto; try lia.
        * intros v Hv. rewrite aget_upd_ne by lia. apply Hsame. lia.
        * split; auto. split; [now rewrite upd_length|]. intros v. destruct (Nat.eq_dec v i) as [->|Hne].
          -- right. rewrite aget_upd_eq by lia. rewrite S1. splits; auto; try lia. destruct (Z.eqb_spec par.[i] (-1)); auto. tauto.
          -- rewrite aget_upd_ne by lia. apply T3.
        * intros v Hv Hv' Hp. destruct (HM v Hv Hv' Hp) as [Hle|]; auto. left. destruct (I2 v ltac:(lia)) as (_ & B' & _). apply B'; auto. apply conn_trans with i0; auto. now apply conn_sym. }
  destruct (Nat.ltb_spec i0 k) as [Hlt|Hge].
  - eapply wp_mono; [apply (G (S n) i0 par anc)|]; auto; try lia.
    + apply conn_refl.
    + split; auto.
    + intros v Hv Hv' Hp. destruct (Nat.le_gt_cases i0 v); [auto|]. destruct (I2 v ltac:(lia)) as (_ & B & _). apply conn_sym in Hv'. apply B in Hv'; auto.
    + intros [[x p] a] H. wp1. exact H.
  - cbn [while_]. wp1. wp1. destruct (Z.ltb_spec (Z.of_nat i0) (Z.of_nat k)); [lia|]. rewrite andb_false_r. wp1. wp1. reflexivity.
Qed.


Lemma climb_inv n k i par anc E : k < n -> length par = n -> length anc = n -> Inv (S k) E par anc ->
  wp (climb n k i (par, anc)) (fun st => length (fst st) = n /\ length (snd st) = n /\ Inv (S k) (fun x y => E x y \/ (i < k /\ x = i /\ y = k)) (fst st) (snd st)).
Proof.
  intros Hk LP LA HI. eapply wp_mono; [apply (climb_wp n k i par anc E); auto|]. intros [p a] H. cbn [fst snd] in *. destruct (Nat.ltb_spec i k) as [Hlt|Hge].
  - pose proof H as [(T1 & T2 & _) _]. splits; try lia. apply (Inv_ext (S k) (add_edge E i k)); [unfold add_edge; tauto|]. eapply climbed_inv; eauto.
  - injection H as -> ->. splits; auto. apply (Inv_ext (S k) E); auto. intros x y. split; [auto|]. intros [|[]]; [auto|lia].
Qed.

Lemma resizeZ_length l m : length (resizeZ l m) = m.
Proof. unfold resizeZ. rewrite app_length, firstn_length, repeat_length. lia. Qed.

(** the edges processed when row [k] has got to position [p] *)
Definition done (Ap Ai : list nat) (k p x y : nat) : Prop :=
  x < y /\ ((y < k /\ entry Ap Ai y x) \/ (y = k /\ exists q, Ap.[k] <= q < p /\ Ai.[q] = x)).

Lemma done_next Ap Ai k x y : done Ap Ai k (Ap.[S k]) x y <-> done Ap Ai (S k) (Ap.[S k]) x y.
Proof.
  unfold done, entry. split.
  - intros [H [[H1 H2]|[-> (q & H1 & H2)]]]; split; auto; left; split; eauto.
  - intros [H [[H1 (q & H2)]|[-> (q & H1 & H2)]]]; split; auto; [|lia]. destruct (Nat.eq_dec y k) as [->|]; [right; eauto|left; split; eauto; lia].
Qed.

Lemma Inv_parent n A par anc : Inv n A par anc -> forall v, v < n -> etree_parent A n v par.[v].
Proof.
  intros [_ H] v Hv. destruct (H v Hv) as (_ & B & C & _). destruct (Z.eq_dec par.[v] (-1)) as [E|E].
  - left. split; auto. intros k Hk Hn F. apply fill_iff in F; auto. apply thru_conn in F. apply B in F; auto. lia.
  - right. destruct (C E) as (k & C1 & C2 & C3 & C4 & C5). exists k. splits; auto; [now apply fill_iff|]. intros j Hj F. apply C5; auto. now apply fill_iff.
Qed.

Definition wf_rows (n : nat) (Ap Ai : list nat) : Prop :=
  n < length Ap /\ forall k, k < n -> Ap.[k] <= Ap.[S k] /\ Ap.[S k] <= length Ai.

Theorem computeParents_wp n Ap Ai parents0 : wf_rows n Ap Ai ->
  wp (computeParents n Ap Ai parents0) (fun par => length par = n /\ forall v, v < n -> etree_parent (below n Ap Ai) n v par.[v]).
Proof.
  intros [W1 W2]. unfold computeParents. wp1.
  apply (wp_for (fun k s => length (fst s) = n /\ length (snd s) = n /\ Inv k (done Ap Ai k Ap.[k]) (fst s) (snd s))).
  - lia.
  - cbn [fst snd]. splits; [apply resizeZ_length|apply repeat_length|]. split; [|lia]. intros x y [H [[H1 _]|[-> _]]]; lia.
  - intros k [par anc] Hk (L1 & L2 & HI). cbn [fst snd] in *. destruct (W2 k ltac:(lia)) as [W3 W4]. wp1. wp1; [lia|]. wp1. wp1; [lia|]. wp1. wp1; [lia|]. wp1. wp1; [lia|].
    apply (wp_for (fun p s => length (fst s) = n /\ length (snd s) = n /\ Inv (S k) (done Ap Ai k p) (fst s) (snd s))).
    + lia.
    + cbn [fst snd]. rewrite !upd_length. splits; auto. eapply Inv_new; [| |rewrite aget_upd_eq by lia; reflexivity|rewrite aget_upd_eq by lia; reflexivity].
      * exact HI.
      * intros v Hv. rewrite !aget_upd_ne by lia. auto.
    + intros p [par' anc'] Hp (M1 & M2 & MI). cbn [fst snd] in *. wp1. wp1; [lia|]. eapply wp_mono; [apply (climb_inv n k Ai.[p] par' anc' (done Ap Ai k p)); auto; lia|].
      intros [p2 a2] (N1 & N2 & NI). splits; auto. eapply Inv_ext; [|exact NI]. intros x y. cbn beta. unfold done. split.
      * intros [[H [H1|[-> (q & Q1 & Q2)]]]|(H & -> & ->)]; split; auto; right; split; auto; [exists q|exists p]; split; auto; lia.
      * intros [H [H1|[-> (q & Q1 & Q2)]]]; [left; split; auto|]. destruct (Nat.eq_dec q p) as [->|]; [right; subst x; auto|left; split; auto; right; split; auto; exists q; split; auto; lia].
    + intros [par' anc'] (M1 & M2 & MI). splits; auto. eapply Inv_ext; [|exact MI]. apply done_next.
  - intros [par anc] (L1 & L2 & HI). wp1. cbn [fst snd] in *. split; auto. apply (Inv_parent n (below n Ap Ai) par anc). eapply Inv_ext; [|exact HI].
    intros x y. unfold done, below. split; [intros [H [[H1 H2]|[-> (q & Q1 & _)]]]; [auto|lia]|tauto].
Qed.
