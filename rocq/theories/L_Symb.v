(** Sums and numbered forests, for the proof of the row and column counts. *)
From Coq Require Import ZifyBool ZifyNat.
From Verif Require Import Base Lib Lib2 Lib3 Spec SpecSym M_Tree P_Tree L_Post P_Post P_TreeH.

(** * Sums *)
Fixpoint zsum (n : nat) (f : nat -> Z) : Z := match n with 0 => 0%Z | S m => (zsum m f + f m)%Z end.

Lemma zsum_ext n f g : (forall i, i < n -> f i = g i) -> zsum n f = zsum n g.
Proof. induction n as [|n IH]; intros H; cbn [zsum]; auto. rewrite IH, H; auto. Qed.

Lemma zsum_add n f g : zsum n (fun i => (f i + g i)%Z) = (zsum n f + zsum n g)%Z.
Proof. induction n as [|n IH]; cbn [zsum]; auto. rewrite IH. lia. Qed.

Lemma zsum_sub n f g : zsum n (fun i => (f i - g i)%Z) = (zsum n f - zsum n g)%Z.
Proof. induction n as [|n IH]; cbn [zsum]; auto. rewrite IH. lia. Qed.

Lemma zsum_zero n f : (forall i, i < n -> f i = 0%Z) -> zsum n f = 0%Z.
Proof. induction n as [|n IH]; intros H; cbn [zsum]; auto. rewrite IH, H; auto. Qed.

Lemma zsum_one n f a : a < n -> (forall i, i < n -> i <> a -> f i = 0%Z) -> zsum n f = f a.
Proof.
  induction n as [|n IH]; intros Ha H; [lia|]. cbn [zsum]. destruct (Nat.eq_dec a n) as [->|].
  - rewrite zsum_zero; [lia|]. intros i Hi. apply H; lia.
  - rewrite IH, (H n); try lia. intros i Hi. apply H. lia.
Qed.

(** two functions that differ at one place *)
Lemma zsum_diff n f g a : a < n -> (forall i, i < n -> i <> a -> f i = g i) -> zsum n f = (zsum n g + (f a - g a))%Z.
Proof.
  intros Ha H. rewrite <- (zsum_one n (fun i => (f i - g i)%Z) a); auto; [rewrite zsum_sub; lia|]. intros i Hi Hne. rewrite H; auto. lia.
Qed.

Lemma zsum_swap n m (f : nat -> nat -> Z) : zsum n (fun i => zsum m (fun j => f i j)) = zsum m (fun j => zsum n (fun i => f i j)).
Proof.
  induction n as [|n IH]; cbn [zsum]; [symmetry; now apply zsum_zero|]. rewrite IH, <- zsum_add. reflexivity.
Qed.

Lemma zsum_trunc n m f : n <= m -> (forall i, n <= i < m -> f i = 0%Z) -> zsum m f = zsum n f.
Proof.
  intros H. induction H as [|m H IH]; intros HZ; auto. cbn [zsum]. rewrite IH, (HZ m); try lia. intros i Hi. apply HZ. lia.
Qed.

Definition b2z (b : bool) : Z := if b then 1%Z else 0%Z.

Lemma zsum_count n (p : nat -> bool) : zsum n (fun i => b2z (p i)) = Z.of_nat (length (filter p (seq 0 n))).
Proof.
  induction n as [|n IH]; auto. cbn [zsum]. rewrite seq_S, filter_app, app_length, IH. cbn [filter Nat.add]. destruct (p n); cbn [b2z length]; lia.
Qed.

Lemma finite_choice n (P : nat -> nat -> Prop) : (forall j, j < n -> exists a, P j a) -> exists f, forall j, j < n -> P j (f j).
Proof.
  induction n as [|n IH]; intros H; [exists (fun _ => 0); lia|]. destruct IH as [f Hf]; [intros j Hj; apply H; lia|]. destruct (H n ltac:(lia)) as [a Ha].
  exists (fun j => if j =? n then a else f j). intros j Hj. destruct (j =? n) eqn:E; [replace j with n by lia; auto|apply Hf; lia].
Qed.

(** * Numbered forests *)
(** parents are larger; [pos] numbers the nodes ([post] is its inverse) such that the descendants of [j]
    have the numbers from [f j] to [pos j] *)
Definition numbered (n : nat) (par : list Z) (post : list nat) (pos f : nat -> nat) : Prop :=
  n <= length par /\ n <= length post /\ (forall u, u < n -> par.[u] = (-1)%Z \/ (Z.of_nat u < par.[u] < Z.of_nat n)%Z) /\
  perm_pair n (aget post) pos /\
  (forall j d, j < n -> d < n -> (desc n par d j <-> f j <= pos d <= pos j)).

Section NF.
Variables (n : nat) (par : list Z) (post : list nat) (pos f : nat -> nat).
Hypothesis NF : numbered n par post pos f.

Definition sub (d j : nat) : bool := (f j <=? pos d) && (pos d <=? pos j).

Lemma nf_sub d j : d < n -> j < n -> (sub d j = true <-> desc n par d j).
Proof. intros Hd Hj. destruct NF as (_ & _ & _ & _ & H). rewrite H by auto. unfold sub. lia. Qed.

Lemma nf_up u : u < n -> par.[u] = (-1)%Z \/ exists p, par.[u] = Z.of_nat p /\ u < p /\ p < n.
Proof. intros Hu. destruct NF as (_ & _ & H & _). destruct (H u Hu) as [|]; auto. right. exists (Z.to_nat par.[u]). lia. Qed.

Lemma nf_len : n <= length par /\ n <= length post.
Proof. now destruct NF as (H1 & H2 & _). Qed.
Lemma nf_post k : k < n -> post.[k] < n /\ pos post.[k] = k.
Proof. destruct NF as (_ & _ & _ & (H & _) & _). auto. Qed.
Lemma nf_pos x : x < n -> pos x < n /\ post.[pos x] = x.
Proof. destruct NF as (_ & _ & _ & (_ & H) & _). auto. Qed.
Lemma nf_pos_inj x y : x < n -> y < n -> pos x = pos y -> x = y.
Proof. intros Hx Hy E. destruct (nf_pos x Hx) as [_ <-]. destruct (nf_pos y Hy) as [_ <-]. now rewrite E. Qed.

Lemma desc_lt d j : d < n -> desc n par d j -> d <= j /\ j < n.
Proof. intros Hd H. induction H as [u|u p v H1 H2 H3 IH]; [lia|]. specialize (IH H2). destruct (nf_up u Hd) as [E|(q & E & Hq)]; lia. Qed.

Lemma sub_refl d : d < n -> sub d d = true.
Proof. intros Hd. apply nf_sub; auto. constructor. Qed.

Lemma sub_le d j : sub d j = true -> pos d <= pos j.
Proof. unfold sub. lia. Qed.
Lemma sub_lt d j : d < n -> j < n -> sub d j = true -> d <= j.
Proof. intros Hd Hj H. apply nf_sub in H; auto. now apply (desc_lt d j). Qed.

Lemma sub_trans a b c : a < n -> b < n -> c < n -> sub a b = true -> sub b c = true -> sub a c = true.
Proof. intros Ha Hb Hc. rewrite !nf_sub by auto. apply desc_trans. Qed.

Lemma sub_antisym a b : a < n -> b < n -> sub a b = true -> sub b a = true -> a = b.
Proof. intros Ha Hb H1 H2. apply nf_pos_inj; auto. apply sub_le in H1, H2. lia. Qed.

(** one step up *)
Lemma sub_step d j p : d < n -> j < n -> par.[d] = Z.of_nat p -> p < n -> sub d j = (d =? j) || sub p j.
Proof.
  intros Hd Hj E Hp. apply eq_true_iff_eq. rewrite orb_true_iff, !nf_sub, Nat.eqb_eq by auto. split.
  - intros H. inversion H as [|? q ? E1 Hq H1]; subst; auto. right. assert (q = p) by lia. now subst.
  - intros [->|H]; [constructor|econstructor; eauto].
Qed.
Lemma sub_root d j : d < n -> j < n -> par.[d] = (-1)%Z -> sub d j = (d =? j).
Proof.
  intros Hd Hj E. apply eq_true_iff_eq. rewrite nf_sub, Nat.eqb_eq by auto. split; [|intros ->; constructor].
  intros H. inversion H as [|? q ? E1 Hq H1]; subst; auto. lia.
Qed.
Lemma sub_parent d p : d < n -> par.[d] = Z.of_nat p -> p < n -> sub d p = true.
Proof. intros Hd E Hp. rewrite (sub_step d p p) by auto. rewrite sub_refl by auto. lia. Qed.
Lemma sub_not_parent d p : d < n -> par.[d] = Z.of_nat p -> p < n -> d < p -> sub p d = false.
Proof. intros Hd E Hp Hlt. destruct (sub p d) eqn:Hs; auto. apply sub_lt in Hs; auto. lia. Qed.

(** two ancestors of a node are comparable *)
Lemma sub_comparable d a b : d < n -> a < n -> b < n -> sub d a = true -> sub d b = true -> sub a b = true \/ sub b a = true.
Proof.
  intros Hd Ha Hb H1 H2. apply nf_sub in H1; auto. revert H2. induction H1 as [u|u p v E Hp H IH]; intros H2; auto.
  rewrite (sub_step u b p) in H2 by auto. apply orb_true_iff in H2. destruct H2 as [H2|H2]; auto. right. assert (b = u) by lia. subst b.
  apply nf_sub; auto. econstructor; eauto.
Qed.

(** the first ancestor with a number of at least [k] *)
Lemma first_above s u k : s < n -> u < n -> sub s u = true -> k <= pos u -> exists q, q < n /\ sub s q = true /\ k <= pos q /\
  (forall j, j < n -> sub s j = true -> sub q j = true \/ (j <> q /\ sub j q = true /\ pos j < k)) .
Proof.
  intros Hs Hu H Hk. apply nf_sub in H; auto. induction H as [u|u p v E Hp H IH].
  - exists u. splits; auto. now apply sub_refl.
  - destruct (le_lt_dec k (pos u)) as [L|L].
    + exists u. splits; auto. now apply sub_refl.
    + destruct (IH Hp Hu Hk) as (q & Hq & Q1 & Q2 & Q3). exists q. splits; auto.
      * rewrite (sub_step u q p) by auto. rewrite Q1. lia.
      * intros j Hj Hsj. rewrite (sub_step u j p) in Hsj by auto. apply orb_true_iff in Hsj. destruct Hsj as [Hsj|Hsj]; auto.
        right. assert (j = u) by lia. subst j. assert (q <> u) by (intros ->; lia). splits; auto. rewrite (sub_step u q p) by auto. rewrite Q1. lia.
Qed.

(** the number of ancestors *)
Definition lev (d : nat) : Z := (zsum n (fun j => b2z (sub d j)) - 1)%Z.
Lemma lev_root d : d < n -> par.[d] = (-1)%Z -> lev d = 0%Z.
Proof.
  intros Hd E. unfold lev. rewrite (zsum_one n _ d); auto; [rewrite sub_refl by auto; reflexivity|].
  intros i Hi Hne. rewrite sub_root by auto. replace (d =? i) with false by lia. reflexivity.
Qed.
Lemma lev_step d p : d < n -> par.[d] = Z.of_nat p -> p < n -> d < p -> lev d = (lev p + 1)%Z.
Proof.
  intros Hd E Hp Hlt. unfold lev. rewrite (zsum_diff n (fun j => b2z (sub d j)) (fun j => b2z (sub p j)) d); auto.
  - rewrite sub_refl, sub_not_parent by auto. cbn [b2z]. lia.
  - intros i Hi Hne. rewrite (sub_step d i p) by auto. replace (d =? i) with false by lia. reflexivity.
Qed.
Lemma lev_diff p q : p < n -> q < n -> sub p q = true -> (lev p - lev q)%Z = zsum n (fun j => b2z (sub p j && negb (sub q j))).
Proof.
  intros Hp Hq H. unfold lev. replace (zsum n (fun j => b2z (sub p j)) - 1 - (zsum n (fun j => b2z (sub q j)) - 1))%Z with
    (zsum n (fun j => b2z (sub p j)) - zsum n (fun j => b2z (sub q j)))%Z by lia. rewrite <- zsum_sub. apply zsum_ext. intros j Hj.
  destruct (sub q j) eqn:E; [rewrite (sub_trans p q j) by auto; reflexivity|]. destruct (sub p j); reflexivity.
Qed.

(** sums over subtrees *)
Definition tsum (C : list Z) (j : nat) : Z := zsum n (fun d => if sub d j then C.[d] else 0%Z).

Lemma tsum_upd C a v j : a < n -> a < length C -> tsum (upd C a v) j = (tsum C j + (if sub a j then v - C.[a] else 0))%Z.
Proof.
  intros Ha HL. unfold tsum. rewrite (zsum_diff n _ (fun d => if sub d j then C.[d] else 0%Z) a); auto.
  - rewrite aget_upd_eq by auto. destruct (sub a j); lia.
  - intros i Hi Hne. rewrite aget_upd_ne by auto. reflexivity.
Qed.

Lemma tsum_rec C j : j < n -> tsum C j = (C.[j] + zsum n (fun c => if (par.[c] =? Z.of_nat j)%Z then tsum C c else 0%Z))%Z.
Proof.
  intros Hj. rewrite (zsum_ext n (fun c => if (par.[c] =? Z.of_nat j)%Z then tsum C c else 0%Z) (fun c => zsum n (fun d => if (par.[c] =? Z.of_nat j)%Z && sub d c then C.[d] else 0%Z))).
  2:{ intros c Hc. destruct (par.[c] =? Z.of_nat j)%Z; cbn [andb]; [reflexivity|]. symmetry. now apply zsum_zero. }
  rewrite zsum_swap. unfold tsum. rewrite (zsum_diff n _ (fun d => zsum n (fun c => if (par.[c] =? Z.of_nat j)%Z && sub d c then C.[d] else 0%Z)) j); auto.
  - rewrite sub_refl by auto. rewrite (zsum_zero n (fun c => if (par.[c] =? Z.of_nat j)%Z && sub j c then C.[j] else 0%Z)); [lia|].
    intros c Hc. destruct (par.[c] =? Z.of_nat j)%Z eqn:E; cbn [andb]; auto. rewrite (sub_not_parent c j); auto; [lia|]. destruct (nf_up c Hc) as [|(p & ? & ?)]; lia.
  - intros d Hd Hne. destruct (sub d j) eqn:Hs.
    + apply nf_sub in Hs; auto. assert (G : exists c, c < n /\ par.[c] = Z.of_nat j /\ desc n par d c).
      { clear -Hs Hne Hd Hj. induction Hs as [|u p v E Hp H IH]; [easy|]. destruct (Nat.eq_dec p v) as [->|Hpv]; [exists u; splits; auto; constructor|].
        destruct (IH Hj Hp Hpv) as (c & C1 & C2 & C3). exists c. splits; auto. econstructor; eauto. }
      destruct G as (c & C1 & C2 & C3). rewrite (zsum_one n _ c); auto.
      * rewrite C2, Z.eqb_refl. apply nf_sub in C3; auto. now rewrite C3.
      * intros i Hi Hic. destruct (par.[i] =? Z.of_nat j)%Z eqn:E; cbn [andb]; auto. destruct (sub d i) eqn:Hdi; auto. exfalso. apply nf_sub in C3; auto.
        assert (Lc : c < j) by (destruct (nf_up c C1) as [|(p & ? & ?)]; lia). assert (Li : i < j) by (destruct (nf_up i Hi) as [|(p & ? & ?)]; lia).
        destruct (sub_comparable d c i Hd C1 Hi C3 Hdi) as [S1|S1].
        -- rewrite (sub_step c i j) in S1 by auto. apply orb_true_iff in S1. destruct S1 as [S1|S1]; [lia|]. rewrite (sub_not_parent i j) in S1; auto; [discriminate|lia].
        -- rewrite (sub_step i c j) in S1 by (auto; lia). apply orb_true_iff in S1. destruct S1 as [S1|S1]; [lia|]. rewrite (sub_not_parent c j) in S1; auto; discriminate.
    + symmetry. apply zsum_zero. intros c Hc. destruct (par.[c] =? Z.of_nat j)%Z eqn:E; cbn [andb]; auto. destruct (sub d c) eqn:Hdc; auto.
      assert (Hcj : sub c j = true) by (apply sub_parent; auto; lia). rewrite (sub_trans d c j) in Hs by auto. discriminate.
Qed.
End NF.

(** a post-order gives such a numbering *)
Lemma numbered_of_post n par post : n <= length par -> n <= length post ->
  (forall u, u < n -> par.[u] = (-1)%Z \/ (Z.of_nat u < par.[u] < Z.of_nat n)%Z) -> is_perm n (firstn n post) ->
  (forall i, i < n -> exists a, a <= i /\ forall m, m < n -> (desc n par post.[m] post.[i] <-> a <= m <= i)) ->
  exists pos f, numbered n par post pos f.
Proof.
  intros H1 H2 H3 H4 H5.
  assert (PB : forall k, k < n -> post.[k] < n) by (intros k Hk; rewrite <- (aget_firstn post n k) by auto; apply (is_perm_lt n); auto).
  assert (PI : forall i j, i < n -> j < n -> post.[i] = post.[j] -> i = j).
  { intros i j Hi Hj E. apply (is_perm_inj n (firstn n post)); auto. now rewrite !aget_firstn by auto. }
  destruct (finite_choice n (fun x k => k < n /\ post.[k] = x)) as [pos Hpos].
  { intros x Hx. destruct (inj_onto n (aget post) PB PI x Hx) as (k & Hk & E). eauto. }
  destruct (finite_choice n (fun j a => forall m, m < n -> (desc n par post.[m] j <-> a <= m <= pos j))) as [f Hf].
  { intros j Hj. destruct (Hpos j Hj) as [P1 P2]. destruct (H5 (pos j) P1) as (a & _ & Ha). exists a. intros m Hm. rewrite <- (Ha m Hm). now rewrite P2. }
  exists pos, f. unfold numbered. splits; auto.
  - split; [|intros i Hi; apply Hpos; auto]. intros k Hk. split; auto. destruct (Hpos post.[k] (PB k Hk)) as [P1 P2]. apply PI; auto.
  - intros j d Hj Hd. destruct (Hpos d Hd) as [P1 P2]. rewrite <- (Hf j Hj (pos d) P1). now rewrite P2.
Qed.
