(** Correctness of tree_post_order (model in M_Tree). *)
From Coq Require Import ZifyBool ZifyNat.
From Verif Require Import Base Lib Lib2 Lib3 Spec Check M_Tree P_Tree.

(** * Order of elements in lists *)

Definition before {A} (x y : A) (l : list A) : Prop := exists a b c, l = a ++ x :: b ++ y :: c.

Lemma before_app_l {A} (x y : A) l l' : before x y l -> before x y (l ++ l').
Proof. intros (a & b & c & ->). exists a, b, (c ++ l'). rewrite <- app_assoc. simpl. rewrite <- app_assoc. reflexivity. Qed.

Lemma before_app_r {A} (x y : A) l l' : before x y l' -> before x y (l ++ l').
Proof. intros (a & b & c & ->). exists (l ++ a), b, c. now rewrite <- app_assoc. Qed.

Lemma before_app {A} (x y : A) l l' : In x l -> In y l' -> before x y (l ++ l').
Proof.
  intros Hx Hy. apply in_split in Hx, Hy. destruct Hx as (a & b & ->), Hy as (c & d & ->).
  exists a, (b ++ c), d. rewrite <- !app_assoc. simpl. now rewrite <- ?app_assoc.
Qed.

Lemma before_filter {A} (f : A -> bool) x y l : before x y l -> f x = true -> f y = true -> before x y (filter f l).
Proof.
  intros (a & b & c & ->) Hx Hy. exists (filter f a), (filter f b), (filter f c).
  rewrite filter_app. simpl. rewrite Hx, filter_app. simpl. now rewrite Hy.
Qed.

Lemma before_seq a n x y : a <= x -> x < y -> y < a + n -> before x y (seq a n).
Proof.
  intros H1 H2 H3. exists (seq a (x - a)), (seq (S x) (y - S x)), (seq (S y) (a + n - S y)).
  replace n with ((x - a) + (1 + ((y - S x) + (1 + (a + n - S y))))) at 1 by lia.
  rewrite !seq_app. simpl. replace (a + (x - a)) with x by lia. replace (x + 1) with (S x) by lia. replace (S x + (y - S x)) with y by lia.
  replace (y + 1) with (S y) by lia. reflexivity.
Qed.

Lemma before_flat_map {A B} (f : A -> list B) i j x y l : before i j l -> In x (f i) -> In y (f j) -> before x y (flat_map f l).
Proof.
  intros (a & b & c & ->) Hx Hy. rewrite flat_map_app. apply before_app_r. simpl. rewrite flat_map_app. simpl.
  apply before_app; auto. apply in_app_iff. right. apply in_app_iff. now left.
Qed.

Lemma before_flat_map1 {A B} (f : A -> list B) i x y l : In i l -> before x y (f i) -> before x y (flat_map f l).
Proof. intros Hi Hb. apply in_split in Hi. destruct Hi as (a & b & ->). rewrite flat_map_app. apply before_app_r. simpl. now apply before_app_l. Qed.

(** * Linked lists *)

Fixpoint lst (Next : list Z) (h : Z) (l : list nat) : Prop :=
  match l with
  | [] => h = EMPTY
  | j :: l' => h = Z.of_nat j /\ lst Next Next.[j] l'
  end.

Lemma lst_upd Next j x : forall l h, ~ In j l -> lst Next h l -> lst (upd Next j x) h l.
Proof.
  induction l as [|i l IH]; intros h Hj; simpl in *; auto. intros [-> H]. split; auto. rewrite aget_upd_ne by (intros ->; tauto). apply IH; auto.
Qed.

Section Tree.
Variables (n : nat) (tree : list Z).
Hypothesis PL : n <= length tree.

Definition is_child (l : nat) : bool := ((0 <=? tree.[l]) && (tree.[l] <? Z.of_nat n))%Z.
Definition child_of (p l : nat) : bool := (tree.[l] =? Z.of_nat p)%Z.

Lemma child_of_is p l : p < n -> child_of p l = true -> is_child l = true.
Proof. unfold child_of, is_child. lia. Qed.

(** every node's list [Head[p]] is the sublist of [ord] of its children *)
Definition linked (Next Head : list Z) (ord : list nat) : Prop :=
  length Next = n /\ length Head = n + 1 /\ forall p, p < n -> lst Next Head.[p] (filter (child_of p) ord).

Lemma linked_push Next Head ord j : linked Next Head ord -> j < n -> ~ In j ord -> is_child j = true ->
  linked (upd Next j Head.[Z.to_nat tree.[j]]) (upd Head (Z.to_nat tree.[j]) (Z.of_nat j)) (j :: ord).
Proof.
  intros (L1 & L2 & L3) Hj Hn Hc. unfold is_child in Hc. unfold linked. rewrite !upd_length. splits; auto.
  intros p Hp. cbn [filter]. destruct (child_of p j) eqn:Ec; unfold child_of in Ec.
  - assert (Ep : Z.to_nat tree.[j] = p) by lia. rewrite Ep. rewrite aget_upd_eq by lia. split; auto. rewrite aget_upd_eq by lia.
    apply lst_upd; auto. intros Hin. apply filter_In in Hin. tauto.
  - rewrite (aget_upd_ne Head) by lia. apply lst_upd; auto. intros Hin. apply filter_In in Hin. tauto.
Qed.

Lemma linked_skip Next Head ord j : linked Next Head ord -> is_child j = false -> linked Next Head (j :: ord).
Proof.
  intros (L1 & L2 & L3) Hc. unfold linked. splits; auto. intros p Hp. cbn [filter]. destruct (child_of p j) eqn:Ec; auto.
  rewrite (child_of_is p j) in Hc by auto. discriminate.
Qed.

Lemma linked_init : linked (repeat 0%Z n) (repeat EMPTY (n + 1)) [].
Proof. unfold linked. rewrite !repeat_length. splits; auto. intros p Hp. simpl. apply aget_repeat. lia. Qed.

Lemma link_plain_wp : wp (link_plain n tree (repeat EMPTY (n + 1), repeat 0%Z n)) (fun r => linked (snd r) (fst r) (seq 0 n)).
Proof.
  unfold link_plain. apply (wp_for (fun i r => linked (snd r) (fst r) (seq (n - i) i))).
  - lia.
  - cbn [fst snd seq]. apply linked_init.
  - intros i [Head Next] Hi HL. cbn [fst snd] in *. pose proof HL as (L1 & L2 & L3). replace (n - S i) with (n - 1 - i) by lia. set (j := n - 1 - i) in *.
    replace (n - i) with (S j) in HL by lia. cbn [seq].
    wp1. wp1; [lia|]. fold (is_child j). destruct (is_child j) eqn:Ec.
    + pose proof Ec as Ec'. unfold is_child in Ec'. wp1. apply rdZ_wp; [lia|lia|]. wp1. wp1; [lia|]. wp1. apply wrZ_wp; [lia|lia|]. wp1. cbn [fst snd].
      apply linked_push; auto; [lia|]. rewrite in_seq. lia.
    + wp1. cbn [fst snd]. apply linked_skip; auto.
  - intros [Head Next]. rewrite Nat.sub_diag. auto.
Qed.

(** * Weighted *)

Variable Weight : list Z.
Hypothesis WL : n <= length Weight.
Hypothesis Hn : 1 <= n.

(** the weight clipped to 0..n-1 *)
Definition cw (l : nat) : nat := Z.to_nat (Z.min (Z.max 0 Weight.[l]) (Z.of_nat n - 1)).

Lemma cw_lt l : cw l < n.
Proof. unfold cw. lia. Qed.

Definition in_bucket (w l : nat) : bool := is_child l && (cw l =? w).

Definition wlinked (Next Whead : list Z) (i W : nat) : Prop :=
  length Next = n /\ length Whead = n /\ forall w, w < W -> lst Next Whead.[w] (rev (filter (in_bucket w) (seq 0 i))).

Lemma link_buckets_wp : wp (link_buckets n tree Weight (repeat EMPTY n, repeat 0%Z n)) (fun r => wlinked (snd r) (fst r) n n).
Proof.
  unfold link_buckets. apply (wp_for (fun i r => wlinked (snd r) (fst r) i n)); auto.
  - lia.
  - cbn [fst snd]. unfold wlinked. rewrite !repeat_length. splits; auto. intros w Hw. simpl. apply aget_repeat. lia.
  - intros j [Whead Next] Hj (L1 & L2 & L3). cbn [fst snd] in *. wp1. wp1; [lia|]. fold (is_child j).
    assert (Hnot : forall w, ~ In j (rev (filter (in_bucket w) (seq 0 j)))).
    { intros w Hin. apply in_rev in Hin. apply filter_In in Hin. destruct Hin as [Hin _]. apply in_seq in Hin. lia. }
    destruct (is_child j) eqn:Ec.
    + wp1. wp1; [lia|]. pose proof (cw_lt j) as Hcw. wp1. apply rdZ_wp; [lia|fold (cw j); lia|]. fold (cw j). wp1. wp1; [lia|]. wp1. apply wrZ_wp; [lia|fold (cw j); lia|]. fold (cw j). wp1.
      cbn [fst snd]. unfold wlinked. rewrite !upd_length. splits; auto. intros w Hw. rewrite seq_S, filter_app, rev_app_distr. cbn [filter Nat.add]. unfold in_bucket at 1. rewrite Ec. cbn [andb].
      destruct (Nat.eqb_spec (cw j) w) as [<-|Hne].
      * cbn [rev app]. rewrite aget_upd_eq by lia. split; auto. rewrite aget_upd_eq by lia. apply lst_upd; auto.
      * cbn [rev app]. rewrite aget_upd_ne by lia. apply lst_upd; auto.
    + wp1. cbn [fst snd]. unfold wlinked. splits; auto. intros w Hw. rewrite seq_S, filter_app, rev_app_distr. cbn [filter Nat.add]. unfold in_bucket at 1. rewrite Ec. cbn [andb rev app]. auto.
Qed.

(** emptying one list *)
Definition empty_loop (fuel : nat) (st : Z * list Z * list Z) : res (Z * list Z * list Z) :=
  while_ fuel
      (fun '(j, Head, Next) => Ok (negb (j =? EMPTY)%Z))
      (fun '(j, Head, Next) =>
         nextj <- rdZ Next j ;;
         p <- rdZ tree j ;;
         if ((0 <=? p) && (p <? Z.of_nat n))%Z then
           h <- rdZ Head p ;; Next <- wrZ Next j h ;; Head <- wrZ Head p j ;; Ok (nextj, Head, Next)
         else Err Throw) st.

Lemma empty_loop_wp (rest : list (list nat)) : forall l fuel j Head Next ord,
  length l < fuel -> lst Next j l -> NoDup l -> (forall x, In x l -> x < n /\ is_child x = true /\ ~ In x ord) ->
  (forall r x, In r rest -> In x r -> ~ In x l) ->
  linked Next Head ord ->
  wp (empty_loop fuel (j, Head, Next)) (fun r => let '(_, Head', Next') := r in
     linked Next' Head' (rev l ++ ord) /\ forall r h, In r rest -> lst Next h r -> lst Next' h r).
Proof.
  induction l as [|x l IH]; intros fuel j Head Next ord Hf Hl HN Hx HR HL; (destruct fuel as [|fuel]; [simpl in Hf; lia|]).
  - simpl in Hl. subst j. simpl. auto.
  - destruct Hl as [-> Hl]. destruct (Hx x) as (Hxn & Hxc & Hxo); [now left|]. pose proof HL as (L1 & L2 & L3). pose proof Hxc as Hxc'. unfold is_child in Hxc'.
    unfold empty_loop. cbn [while_]. destruct (Z.eqb_spec (Z.of_nat x) EMPTY); [unfold EMPTY in *; lia|]. cbn [negb bind]. wp1. wp1. apply rdZ_wp; [lia|lia|]. rewrite Nat2Z.id.
    wp1. apply rdZ_wp; [lia|lia|]. rewrite Nat2Z.id. fold (is_child x). rewrite Hxc. wp1. apply rdZ_wp; [lia|lia|]. wp1. apply wrZ_wp; [lia|lia|]. wp1. apply wrZ_wp; [lia|lia|]. rewrite Nat2Z.id. wp1.
    apply NoDup_cons_iff in HN. destruct HN as [HN1 HN2].
    eapply wp_mono; [apply (IH fuel _ _ _ (x :: ord))|].
    + simpl in Hf. lia.
    + apply lst_upd; auto.
    + auto.
    + intros y Hy. destruct (Hx y) as (A & B & C); [now right|]. splits; auto. intros [->|?]; auto.
    + intros r y Hr Hy Hy'. apply (HR r y Hr Hy). now right.
    + apply linked_push; auto.
    + intros [[j' H'] N'] [G1 G2]. split.
      * simpl. rewrite <- app_assoc. exact G1.
      * intros r h Hr Hh. apply G2; auto. apply lst_upd; auto. intros Hin. apply (HR r x Hr Hin). now left.
Qed.

Definition word (a m : nat) : list nat := flat_map (fun w => filter (in_bucket w) (seq 0 n)) (seq a m).

Lemma in_word a m x : In x (word a m) <-> x < n /\ is_child x = true /\ a <= cw x < a + m.
Proof.
  unfold word. rewrite in_flat_map. split.
  - intros (w & Hw & Hx). apply in_seq in Hw. apply filter_In in Hx. destruct Hx as [Hx Hb]. apply in_seq in Hx. unfold in_bucket in Hb. apply andb_true_iff in Hb. destruct Hb as [Hb1 Hb2]. apply Nat.eqb_eq in Hb2. splits; auto; lia.
  - intros (H1 & H2 & H3). exists (cw x). rewrite in_seq. split; [lia|]. apply filter_In. rewrite in_seq. unfold in_bucket. rewrite H2, Nat.eqb_refl. split; auto. lia.
Qed.

Lemma link_weighted_wp Whead Next : wlinked Next Whead n n ->
  wp (link_weighted n tree Whead (repeat EMPTY (n + 1), Next)) (fun r => linked (snd r) (fst r) (word 0 n)).
Proof.
  intros (W1 & W2 & W3). unfold link_weighted.
  apply (wp_for (fun i r => linked (snd r) (fst r) (word (n - i) i) /\ forall w, w < n - i -> lst (snd r) Whead.[w] (rev (filter (in_bucket w) (seq 0 n))))).
  - lia.
  - cbn [fst snd]. split; [|rewrite Nat.sub_0_r; auto]. unfold word. simpl. pose proof linked_init as (A & B & C). split; [auto|]. split; [auto|]. intros p Hp. simpl. apply aget_repeat. lia.
  - intros i [Head Nx] Hi [HL HW]. cbn [fst snd] in *. replace (n - S i) with (n - 1 - i) by lia. set (w := n - 1 - i) in *. replace (n - i) with (S w) in * by lia.
    wp1. wp1; [lia|]. wp1.
    pose (rest := map (fun w' => rev (filter (in_bucket w') (seq 0 n))) (seq 0 w)).
    eapply wp_mono; [apply (empty_loop_wp rest (rev (filter (in_bucket w) (seq 0 n))) (S n) Whead.[w] Head Nx (word (S w) i))|]; auto.
    + rewrite rev_length. rewrite <- (Nat.sub_0_r n) at 1. rewrite <- cnt_filter. pose proof (cnt_le 0 n (in_bucket w)). lia.
    + apply NoDup_rev. apply NoDup_filter. apply seq_NoDup.
    + intros x Hx. apply in_rev in Hx. apply filter_In in Hx. destruct Hx as [Hx Hb]. apply in_seq in Hx. unfold in_bucket in Hb. apply andb_true_iff in Hb. destruct Hb as [Hb1 Hb2]. apply Nat.eqb_eq in Hb2. splits; auto; [lia|]. rewrite in_word. lia.
    + intros r x Hr Hx. unfold rest in Hr. apply in_map_iff in Hr. destruct Hr as (w' & <- & Hw'). apply in_seq in Hw'. rewrite <- in_rev in *. rewrite filter_In in *. unfold in_bucket in *. intros [_ Hb]. destruct Hx as [_ Hx]. lia.
    + intros [[j' H'] N'] [G1 G2]. wp1. cbn [fst snd]. split.
      * rewrite rev_involutive in G1. exact G1.
      * intros w' Hw'. apply G2; [|apply HW; lia]. unfold rest. apply in_map_iff. exists w'. rewrite in_seq. split; auto. lia.
  - intros [Head Nx] [HL _]. rewrite Nat.sub_diag in HL. exact HL.
Qed.
End Tree.
