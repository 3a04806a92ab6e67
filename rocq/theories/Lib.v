(** Lib: finite sums over ranges, sortedness, permutations of [0..n).
    Pure mathematics; nothing here models /repo code. *)
From Verif Require Export Base.
From Coq Require Import ZifyBool ZifyNat.

(** * Sums over [a, b) *)

Definition sum_r (a b : nat) (f : nat -> nat) : nat := list_sum (map f (seq a (b - a))).

Lemma sum_r_nil a b f : b <= a -> sum_r a b f = 0.
Proof. intros. unfold sum_r. now replace (b - a) with 0 by lia. Qed.

Lemma sum_r_S a b f : a <= b -> sum_r a (S b) f = sum_r a b f + f b.
Proof.
  intros. unfold sum_r. replace (S b - a) with (S (b - a)) by lia.
  rewrite seq_S, map_app, list_sum_app. simpl. replace (a + (b - a)) with b by lia. lia.
Qed.

Lemma sum_r_first a b f : a < b -> sum_r a b f = f a + sum_r (S a) b f.
Proof.
  intros. unfold sum_r. replace (b - a) with (S (b - S a)) by lia. reflexivity.
Qed.

Lemma sum_r_split a b c f : a <= b -> b <= c -> sum_r a c f = sum_r a b f + sum_r b c f.
Proof.
  intros Hab Hbc. unfold sum_r. replace (c - a) with ((b - a) + (c - b)) by lia.
  rewrite seq_app, map_app, list_sum_app. now replace (a + (b - a)) with b by lia.
Qed.

Lemma sum_r_ext a b f g : (forall i, a <= i < b -> f i = g i) -> sum_r a b f = sum_r a b g.
Proof.
  intros He. unfold sum_r. f_equal. apply map_ext_in. intros i Hi.
  apply in_seq in Hi. apply He. lia.
Qed.

Lemma sum_r_ind (P : nat -> nat -> Prop) a b f :
  a <= b -> P a 0 -> (forall i s, a <= i < b -> P i s -> P (S i) (s + f i)) -> P b (sum_r a b f).
Proof.
  intros Hab H0 HS. induction Hab as [|b Hab IH].
  - rewrite sum_r_nil by lia. exact H0.
  - rewrite sum_r_S by lia. apply HS; [lia|]. apply IH. intros i s Hi. apply HS. lia.
Qed.

Lemma sum_r_le a b f g : (forall i, a <= i < b -> f i <= g i) -> sum_r a b f <= sum_r a b g.
Proof.
  intros He. destruct (le_lt_dec b a) as [H|H].
  - rewrite !sum_r_nil by lia. lia.
  - assert (a <= b) as Hab by lia. clear H. induction Hab as [|b Hab IH].
    + rewrite !sum_r_nil by lia. lia.
    + rewrite !sum_r_S by lia. assert (f b <= g b) by (apply He; lia).
      assert (sum_r a b f <= sum_r a b g) by (apply IH; intros; apply He; lia). lia.
Qed.

Lemma sum_r_add a b f g : sum_r a b (fun i => f i + g i) = sum_r a b f + sum_r a b g.
Proof.
  destruct (le_lt_dec b a) as [H|H].
  - rewrite !sum_r_nil by lia. lia.
  - assert (a <= b) as Hab by lia. clear H. induction Hab as [|b Hab IH].
    + rewrite !sum_r_nil by lia. lia.
    + rewrite !sum_r_S by lia. lia.
Qed.

Lemma sum_r_const a b c : sum_r a b (fun _ => c) = (b - a) * c.
Proof.
  destruct (le_lt_dec b a) as [H|H].
  - rewrite !sum_r_nil by lia. replace (b - a) with 0 by lia. lia.
  - assert (a <= b) as Hab by lia. clear H. induction Hab as [|b Hab IH].
    + rewrite !sum_r_nil by lia. replace (a - a) with 0 by lia. lia.
    + rewrite !sum_r_S by lia. rewrite IH. replace (S b - a) with (S (b - a)) by lia. lia.
Qed.

Lemma sum_r_ge_one a b f i : a <= i < b -> f i <= sum_r a b f.
Proof.
  intros Hi. rewrite (sum_r_split a i b) by lia. rewrite (sum_r_first i b) by lia. lia.
Qed.

Lemma sum_r_zero a b f : sum_r a b f = 0 -> forall i, a <= i < b -> f i = 0.
Proof. intros H i Hi. pose proof (sum_r_ge_one a b f i Hi). lia. Qed.

Lemma sum_r_all_zero a b f : (forall i, a <= i < b -> f i = 0) -> sum_r a b f = 0.
Proof.
  intros H. rewrite (sum_r_ext a b f (fun _ => 0)) by auto. rewrite sum_r_const. lia.
Qed.

Lemma sum_r_pos a b f : 0 < sum_r a b f -> exists i, a <= i < b /\ 0 < f i.
Proof.
  intros H. destruct (le_lt_dec b a) as [Hba|Hba].
  - rewrite sum_r_nil in H by lia. lia.
  - assert (a <= b) as Hab by lia. clear Hba. induction Hab as [|b Hab IH].
    + rewrite sum_r_nil in H by lia. lia.
    + rewrite sum_r_S in H by lia. destruct (f b) eqn:E.
      * destruct IH as [i [Hi Hf]]; [lia|]. exists i. split; [lia|auto].
      * exists b. split; lia.
Qed.

Lemma sum_r_delta a b j v : a <= j < b -> sum_r a b (fun i => if i =? j then v else 0) = v.
Proof.
  intros Hj. rewrite (sum_r_split a j b) by lia. rewrite (sum_r_first j b) by lia.
  rewrite Nat.eqb_refl.
  rewrite (sum_r_all_zero a j), (sum_r_all_zero (S j) b); [lia| |];
    intros i Hi; destruct (Nat.eqb_spec i j); lia.
Qed.

Lemma sum_r_upd a b f j v : a <= j < b ->
  sum_r a b (fun i => if i =? j then v else f i) + f j = sum_r a b f + v.
Proof.
  intros Hj.
  rewrite (sum_r_split a j b) by lia. rewrite (sum_r_first j b) by lia.
  rewrite (sum_r_split a j b f) by lia. rewrite (sum_r_first j b f) by lia.
  rewrite Nat.eqb_refl.
  rewrite (sum_r_ext a j (fun i => if i =? j then v else f i) f)
    by (intros i Hi; destruct (Nat.eqb_spec i j); lia).
  rewrite (sum_r_ext (S j) b (fun i => if i =? j then v else f i) f)
    by (intros i Hi; destruct (Nat.eqb_spec i j); lia).
  lia.
Qed.

Lemma sum_r_swap a b c d (f : nat -> nat -> nat) :
  sum_r a b (fun i => sum_r c d (fun j => f i j)) = sum_r c d (fun j => sum_r a b (fun i => f i j)).
Proof.
  destruct (le_lt_dec b a) as [H|H].
  - rewrite sum_r_nil by lia. symmetry. apply sum_r_all_zero. intros. now apply sum_r_nil.
  - assert (a <= b) as Hab by lia. clear H. induction Hab as [|b Hab IH].
    + rewrite sum_r_nil by lia. symmetry. apply sum_r_all_zero. intros. apply sum_r_nil. lia.
    + rewrite sum_r_S by lia. rewrite IH. rewrite <- sum_r_add. apply sum_r_ext.
      intros j Hj. now rewrite sum_r_S by lia.
Qed.

Definition b2n (b : bool) : nat := if b then 1 else 0.

(** number of indices in [a, b) satisfying [p] *)
Definition cnt (a b : nat) (p : nat -> bool) : nat := sum_r a b (fun i => b2n (p i)).

Lemma cnt_le a b p : cnt a b p <= b - a.
Proof.
  unfold cnt. etransitivity; [apply (sum_r_le a b _ (fun _ => 1))|rewrite sum_r_const; lia].
  intros i _. destruct (p i); simpl; lia.
Qed.

Lemma cnt_pos a b p : 0 < cnt a b p -> exists i, a <= i < b /\ p i = true.
Proof.
  intros H. apply sum_r_pos in H. destruct H as [i [Hi Hp]]. exists i. split; auto.
  destruct (p i); auto; simpl in Hp; lia.
Qed.

Lemma cnt_zero a b p : cnt a b p = 0 -> forall i, a <= i < b -> p i = false.
Proof.
  intros H i Hi. apply (sum_r_zero _ _ _ H) in Hi. destruct (p i); auto; discriminate.
Qed.

Lemma cnt_all_false a b p : (forall i, a <= i < b -> p i = false) -> cnt a b p = 0.
Proof. intros H. apply sum_r_all_zero. intros i Hi. now rewrite H. Qed.

Lemma cnt_ge_one a b p i : a <= i < b -> p i = true -> 1 <= cnt a b p.
Proof. intros Hi Hp. pose proof (sum_r_ge_one a b (fun i => b2n (p i)) i Hi). simpl in H.
  rewrite Hp in H. exact H. Qed.

Lemma cnt_ge_two a b p i j : a <= i < b -> a <= j < b -> i <> j -> p i = true -> p j = true -> 2 <= cnt a b p.
Proof.
  intros Hi Hj Hij Hpi Hpj.
  assert (G : forall i j, a <= i < b -> a <= j < b -> i < j -> p i = true -> p j = true -> 2 <= cnt a b p).
  { clear. intros i j Hi Hj Hij Hpi Hpj. unfold cnt.
    rewrite (sum_r_split a (S i) b) by lia.
    pose proof (sum_r_ge_one a (S i) (fun i => b2n (p i)) i ltac:(lia)) as H1.
    pose proof (sum_r_ge_one (S i) b (fun i => b2n (p i)) j ltac:(lia)) as H2.
    simpl in H1, H2. rewrite Hpi in H1. rewrite Hpj in H2. simpl in *. lia. }
  destruct (Nat.lt_total i j) as [H|[H|H]]; [eauto|lia|eauto].
Qed.

Lemma cnt_one_unique a b p i j :
  cnt a b p = 1 -> a <= i < b -> a <= j < b -> p i = true -> p j = true -> i = j.
Proof.
  intros H Hi Hj Hpi Hpj. destruct (Nat.eq_dec i j) as [|Hn]; auto.
  pose proof (cnt_ge_two a b p i j Hi Hj Hn Hpi Hpj). lia.
Qed.

Lemma cnt_unique_one a b p i :
  a <= i < b -> p i = true -> (forall j, a <= j < b -> p j = true -> j = i) -> cnt a b p = 1.
Proof.
  intros Hi Hp Hu. unfold cnt.
  rewrite (sum_r_ext a b _ (fun j => if j =? i then 1 else 0)).
  - now apply sum_r_delta.
  - intros j Hj. destruct (Nat.eqb_spec j i) as [->|Hn]; [now rewrite Hp|].
    destruct (p j) eqn:E; auto. elim Hn. auto.
Qed.

Lemma cnt_ext a b p q : (forall i, a <= i < b -> p i = q i) -> cnt a b p = cnt a b q.
Proof. intros H. apply sum_r_ext. intros i Hi. now rewrite H. Qed.

Lemma cnt_S a b p : a <= b -> cnt a (S b) p = cnt a b p + b2n (p b).
Proof. intros. unfold cnt. now rewrite sum_r_S. Qed.

Lemma cnt_split a b c p : a <= b -> b <= c -> cnt a c p = cnt a b p + cnt b c p.
Proof. intros. unfold cnt. now rewrite (sum_r_split a b c). Qed.

Lemma cnt_full a b p : cnt a b p = b - a -> forall i, a <= i < b -> p i = true.
Proof.
  intros H i Hi. destruct (p i) eqn:E; auto. exfalso.
  pose proof (cnt_split a i b p ltac:(lia) ltac:(lia)) as H1.
  pose proof (cnt_split i (S i) b p ltac:(lia) ltac:(lia)) as H2.
  pose proof (cnt_le a i p). pose proof (cnt_le (S i) b p).
  rewrite (cnt_S i i p) in H2 by lia. rewrite E in H2.
  rewrite (cnt_all_false i i) in H2 by lia. simpl in H2. lia.
Qed.

Lemma cnt_all_true a b p : (forall i, a <= i < b -> p i = true) -> cnt a b p = b - a.
Proof.
  intros H. unfold cnt. rewrite (sum_r_ext a b _ (fun _ => 1)).
  - rewrite sum_r_const. lia.
  - intros i Hi. now rewrite H.
Qed.

Lemma cnt_mono a b p q : (forall i, a <= i < b -> p i = true -> q i = true) -> cnt a b p <= cnt a b q.
Proof.
  intros H. apply sum_r_le. intros i Hi. destruct (p i) eqn:E; simpl; [|lia].
  rewrite (H i Hi E). simpl. lia.
Qed.

Lemma cnt_upd_true a b p q j :
  a <= j < b -> p j = false -> q j = true -> (forall i, a <= i < b -> i <> j -> q i = p i) ->
  cnt a b q = S (cnt a b p).
Proof.
  intros Hj Hp Hq He. unfold cnt.
  pose proof (sum_r_upd a b (fun i => b2n (p i)) j 1 Hj) as H. simpl in H. rewrite Hp in H. simpl in H.
  rewrite (sum_r_ext a b (fun i => b2n (q i)) (fun i => if i =? j then 1 else b2n (p i))).
  - lia.
  - intros i Hi. destruct (Nat.eqb_spec i j) as [->|Hn]; [now rewrite Hq|]. rewrite He; auto.
Qed.

Lemma aget_sum_bound a b f j : a <= j < b -> f j <= sum_r a b f.
Proof. apply sum_r_ge_one. Qed.

(** * Permutations of [0..n) *)

Definition is_perm (n : nat) (l : list nat) : Prop :=
  length l = n /\ NoDup l /\ (forall x, In x l <-> x < n).

Lemma NoDup_bounded_length n (l : list nat) :
  NoDup l -> (forall x, In x l -> x < n) -> length l <= n.
Proof.
  intros HN Hb. rewrite <- (seq_length n 0). apply NoDup_incl_length; auto.
  intros x Hx. apply in_seq. specialize (Hb x Hx). lia.
Qed.

Lemma is_perm_intro n l : length l = n -> NoDup l -> (forall x, In x l -> x < n) -> is_perm n l.
Proof.
  intros HL HN Hb. split; [auto|split; auto]. intros x; split; [auto|].
  intros Hx. assert (Permutation l (seq 0 n)) as HP.
  { apply NoDup_Permutation_bis; auto.
    - rewrite seq_length. lia.
    - intros y Hy. apply in_seq. specialize (Hb y Hy). lia. }
  apply (Permutation_in x (Permutation_sym HP)). apply in_seq. lia.
Qed.

Lemma is_perm_Permutation n l : is_perm n l <-> Permutation l (seq 0 n).
Proof.
  split.
  - intros (HL & HN & HI). apply NoDup_Permutation; auto.
    + apply seq_NoDup.
    + intros x. rewrite HI, in_seq. lia.
  - intros HP. split; [|split].
    + rewrite (Permutation_length HP). apply seq_length.
    + apply (Permutation_NoDup (Permutation_sym HP)). apply seq_NoDup.
    + intros x. split; intros Hx.
      * apply (Permutation_in _ HP) in Hx. apply in_seq in Hx. lia.
      * apply (Permutation_in _ (Permutation_sym HP)). apply in_seq. lia.
Qed.

Lemma is_perm_pos n l x : is_perm n l -> x < n -> exists i, i < n /\ l.[i] = x.
Proof.
  intros (HL & HN & HI) Hx. apply HI in Hx. apply In_aget in Hx. destruct Hx as [i [Hi E]].
  exists i. split; auto. lia.
Qed.

Lemma is_perm_lt n l i : is_perm n l -> i < n -> l.[i] < n.
Proof. intros (HL & HN & HI) Hi. apply HI. apply aget_In. lia. Qed.

Lemma is_perm_inj n l i j : is_perm n l -> i < n -> j < n -> l.[i] = l.[j] -> i = j.
Proof. intros (HL & HN & HI) Hi Hj E. apply (NoDup_aget l); auto; lia. Qed.

(** injective map from [0..n) to [0..n) is onto *)
Lemma inj_onto n (f : nat -> nat) :
  (forall i, i < n -> f i < n) -> (forall i j, i < n -> j < n -> f i = f j -> i = j) ->
  forall y, y < n -> exists i, i < n /\ f i = y.
Proof.
  intros Hb Hi y Hy.
  assert (is_perm n (map f (seq 0 n))) as HP.
  { apply is_perm_intro.
    - now rewrite map_length, seq_length.
    - apply NoDup_of_aget. rewrite map_length, seq_length. intros i j Hi' Hj' E.
      rewrite !aget_map_seq in E by lia. auto.
    - intros x Hx. apply in_map_iff in Hx. destruct Hx as [i [<- Hx]]. apply in_seq in Hx.
      apply Hb. lia. }
  destruct (is_perm_pos n _ y HP Hy) as [i [Hi' E]]. exists i. split; auto.
  now rewrite aget_map_seq in E by lia.
Qed.

(** * Slices *)

Definition slice {A} (l : list A) (a b : nat) : list A := firstn (b - a) (skipn a l).

Lemma slice_length {A} (l : list A) a b : a <= b -> b <= length l -> length (slice l a b) = b - a.
Proof. intros. unfold slice. rewrite firstn_length, skipn_length. lia. Qed.

Lemma aget_firstn {A} `{Dflt A} (l : list A) k i : i < k -> (firstn k l).[i] = l.[i].
Proof.
  unfold aget. revert k i; induction l as [|h t IH]; intros [|k] [|i] Hi; simpl; try lia; auto.
  apply IH. lia.
Qed.

Lemma aget_skipn {A} `{Dflt A} (l : list A) k i : (skipn k l).[i] = l.[k + i].
Proof.
  unfold aget. revert k; induction l as [|h t IH]; intros [|k]; simpl; auto.
  destruct i; auto.
Qed.

Lemma aget_slice {A} `{Dflt A} (l : list A) a b i : i < b - a -> (slice l a b).[i] = l.[a + i].
Proof. intros Hi. unfold slice. rewrite aget_firstn by lia. apply aget_skipn. Qed.

Lemma In_slice {A} `{Dflt A} (l : list A) a b x :
  a <= b -> b <= length l -> (In x (slice l a b) <-> exists k, a <= k < b /\ l.[k] = x).
Proof.
  intros Hab Hb. split.
  - intros Hx. apply In_aget in Hx. destruct Hx as [i [Hi E]]. rewrite slice_length in Hi by lia.
    rewrite aget_slice in E by lia. exists (a + i). split; [lia|auto].
  - intros [k [Hk E]]. replace k with (a + (k - a)) in E by lia.
    rewrite <- (aget_slice l a b) in E by lia. rewrite <- E. apply aget_In.
    rewrite slice_length by lia. lia.
Qed.

Lemma skipn_skipn' {A} (l : list A) a b : skipn a (skipn b l) = skipn (b + a) l.
Proof. revert l; induction b as [|b IH]; intros l; simpl; auto. destruct l; simpl; auto. apply skipn_nil. Qed.

Lemma slice_app {A} (l : list A) a b c : a <= b -> b <= c -> slice l a c = slice l a b ++ slice l b c.
Proof.
  intros Hab Hbc. unfold slice. replace (c - a) with ((b - a) + (c - b)) by lia.
  replace (skipn b l) with (skipn (b - a) (skipn a l)).
  - generalize (skipn a l) (b - a) (c - b). clear. induction l as [|h t IH]; intros p q; simpl.
    + now rewrite !firstn_nil, skipn_nil, firstn_nil.
    + destruct p; simpl; auto. now rewrite IH.
  - rewrite skipn_skipn'. f_equal. lia.
Qed.

Lemma slice_full {A} (l : list A) : slice l 0 (length l) = l.
Proof. unfold slice. simpl. rewrite Nat.sub_0_r. apply firstn_all. Qed.

Lemma slice_nil {A} (l : list A) a b : b <= a -> slice l a b = [].
Proof. intros. unfold slice. now replace (b - a) with 0 by lia. Qed.

(** * Monotone pointer arrays *)

Lemma mono_le (p : nat -> nat) n :
  (forall i, i < n -> p i <= p (S i)) -> forall i j, i <= j -> j <= n -> p i <= p j.
Proof.
  intros H i j Hij. induction Hij as [|j Hij IH]; intros Hj; [lia|].
  specialize (H j ltac:(lia)). specialize (IH ltac:(lia)). lia.
Qed.

(** every position below [p n] lies in exactly one bucket *)
Lemma bucket_exists (p : nat -> nat) n k :
  p 0 <= k -> k < p n -> exists i, i < n /\ p i <= k < p (S i).
Proof.
  induction n as [|n IH]; intros H0 Hk; [lia|].
  destruct (le_lt_dec (p n) k) as [H|H].
  - exists n. lia.
  - destruct (IH H0 H) as [i [Hi Hp]]. exists i. split; [lia|auto].
Qed.

Lemma bucket_unique (p : nat -> nat) n i j k :
  (forall i, i < n -> p i <= p (S i)) -> i < n -> j < n ->
  p i <= k < p (S i) -> p j <= k < p (S j) -> i = j.
Proof.
  intros Hm Hi Hj Hki Hkj.
  destruct (Nat.lt_total i j) as [H|[H|H]]; auto.
  - pose proof (mono_le p n Hm (S i) j ltac:(lia) ltac:(lia)). lia.
  - pose proof (mono_le p n Hm (S j) i ltac:(lia) ltac:(lia)). lia.
Qed.

(** * Sorting *)

Fixpoint insert (x : nat) (l : list nat) : list nat :=
  match l with
  | [] => [x]
  | y :: t => if x <=? y then x :: l else y :: insert x t
  end.

(** std::sort on ints: the sorted permutation is unique, so any algorithm will do *)
Fixpoint isort (l : list nat) : list nat :=
  match l with [] => [] | x :: t => insert x (isort t) end.

(** std::unique + erase: drop adjacent duplicates *)
Fixpoint uniq (l : list nat) : list nat :=
  match l with
  | [] => []
  | x :: t => match t with
              | [] => [x]
              | y :: _ => if x =? y then uniq t else x :: uniq t
              end
  end.

Definition sorted_le (l : list nat) : Prop :=
  forall i j, i < j -> j < length l -> l.[i] <= l.[j].
Definition sorted_lt (l : list nat) : Prop :=
  forall i j, i < j -> j < length l -> l.[i] < l.[j].

Lemma insert_perm x l : Permutation (x :: l) (insert x l).
Proof.
  induction l as [|y t IH]; simpl; auto.
  destruct (x <=? y); auto.
  rewrite perm_swap. now apply perm_skip.
Qed.

Lemma isort_perm l : Permutation l (isort l).
Proof.
  induction l as [|x t IH]; simpl; auto.
  rewrite <- insert_perm. now apply perm_skip.
Qed.

Lemma isort_length l : length (isort l) = length l.
Proof. symmetry. apply Permutation_length, isort_perm. Qed.

Lemma sorted_le_cons x l : sorted_le (x :: l) <-> (forall y, In y l -> x <= y) /\ sorted_le l.
Proof.
  split.
  - intros HS. split.
    + intros y Hy. apply In_aget in Hy. destruct Hy as [i [Hi E]].
      specialize (HS 0 (S i) ltac:(lia) ltac:(simpl; lia)).
      rewrite aget_cons_0, aget_cons_S in HS. lia.
    + intros i j Hij Hj. specialize (HS (S i) (S j) ltac:(lia) ltac:(simpl; lia)).
      now rewrite !aget_cons_S in HS.
  - intros [Hx HS] i j Hij Hj. destruct i as [|i], j as [|j]; try lia.
    + rewrite aget_cons_0, aget_cons_S. apply Hx. apply aget_In. simpl in Hj. lia.
    + rewrite !aget_cons_S. apply HS; simpl in Hj; lia.
Qed.

Lemma sorted_lt_cons x l : sorted_lt (x :: l) <-> (forall y, In y l -> x < y) /\ sorted_lt l.
Proof.
  split.
  - intros HS. split.
    + intros y Hy. apply In_aget in Hy. destruct Hy as [i [Hi E]].
      specialize (HS 0 (S i) ltac:(lia) ltac:(simpl; lia)).
      rewrite aget_cons_0, aget_cons_S in HS. lia.
    + intros i j Hij Hj. specialize (HS (S i) (S j) ltac:(lia) ltac:(simpl; lia)).
      now rewrite !aget_cons_S in HS.
  - intros [Hx HS] i j Hij Hj. destruct i as [|i], j as [|j]; try lia.
    + rewrite aget_cons_0, aget_cons_S. apply Hx. apply aget_In. simpl in Hj. lia.
    + rewrite !aget_cons_S. apply HS; simpl in Hj; lia.
Qed.

Lemma sorted_le_nil : sorted_le [].
Proof. intros i j _ Hj. simpl in Hj. lia. Qed.
Lemma sorted_lt_nil : sorted_lt [].
Proof. intros i j _ Hj. simpl in Hj. lia. Qed.

Lemma insert_sorted x l : sorted_le l -> sorted_le (insert x l).
Proof.
  induction l as [|y t IH]; intros HS; simpl.
  - apply sorted_le_cons. split; [intros ? []|apply sorted_le_nil].
  - apply sorted_le_cons in HS. destruct HS as [Hy HS].
    destruct (Nat.leb_spec x y) as [Hxy|Hxy].
    + apply sorted_le_cons. split.
      * intros z [->|Hz]; [lia|]. specialize (Hy z Hz). lia.
      * apply sorted_le_cons. auto.
    + apply sorted_le_cons. split; auto.
      intros z Hz. apply (Permutation_in _ (Permutation_sym (insert_perm x t))) in Hz.
      destruct Hz as [<-|Hz]; [lia|auto].
Qed.

Lemma isort_sorted l : sorted_le (isort l).
Proof. induction l as [|x t IH]; simpl; [apply sorted_le_nil|now apply insert_sorted]. Qed.

Lemma isort_In x l : In x (isort l) <-> In x l.
Proof.
  split; apply Permutation_in; [apply Permutation_sym|]; apply isort_perm.
Qed.

Lemma uniq_In x l : In x (uniq l) <-> In x l.
Proof.
  induction l as [|y t IH]; [simpl; tauto|].
  destruct t as [|z t]; [simpl; tauto|].
  change (uniq (y :: z :: t)) with (if y =? z then uniq (z :: t) else y :: uniq (z :: t)).
  destruct (Nat.eqb_spec y z) as [->|Hn].
  - rewrite IH. simpl. tauto.
  - change (In x (y :: uniq (z :: t)) <-> In x (y :: z :: t)). simpl (In x (y :: _)).
    rewrite IH. simpl. tauto.
Qed.

Lemma uniq_sorted l : sorted_le l -> sorted_lt (uniq l).
Proof.
  induction l as [|y t IH]; intros HS; [apply sorted_lt_nil|].
  apply sorted_le_cons in HS. destruct HS as [Hy HS].
  destruct t as [|z t].
  - simpl. apply sorted_lt_cons. split; [intros ? []|apply sorted_lt_nil].
  - change (uniq (y :: z :: t)) with (if y =? z then uniq (z :: t) else y :: uniq (z :: t)).
    destruct (Nat.eqb_spec y z) as [->|Hn]; [auto|].
    apply sorted_lt_cons. split; auto.
    intros w Hw. apply (proj1 (uniq_In _ _)) in Hw. pose proof (Hy z ltac:(now left)) as H1.
    apply sorted_le_cons in HS. destruct HS as [Hz _].
    destruct Hw as [<-|Hw]; [lia|]. specialize (Hz w Hw). lia.
Qed.

Lemma sorted_lt_NoDup l : sorted_lt l -> NoDup l.
Proof.
  intros HS. apply NoDup_of_aget. intros i j Hi Hj E.
  destruct (Nat.lt_total i j) as [H|[H|H]]; auto;
    [specialize (HS i j H Hj)|specialize (HS j i H Hi)]; lia.
Qed.

Lemma sorted_lt_le l : sorted_lt l -> sorted_le l.
Proof. intros HS i j Hij Hj. specialize (HS i j Hij Hj). lia. Qed.

Lemma sorted_le_NoDup_lt l : sorted_le l -> NoDup l -> sorted_lt l.
Proof.
  intros HS HN i j Hij Hj. pose proof (HS i j Hij Hj).
  destruct (Nat.eq_dec l.[i] l.[j]) as [E|]; [|lia].
  apply NoDup_aget in E; auto; lia.
Qed.

Lemma sorted_le_perm_unique l l' : sorted_le l -> sorted_le l' -> Permutation l l' -> l = l'.
Proof.
  revert l'. induction l as [|x t IH]; intros l' HS HS' HP.
  - apply Permutation_nil in HP. auto.
  - destruct l' as [|y t'].
    + symmetry in HP. apply Permutation_nil in HP. discriminate.
    + apply sorted_le_cons in HS. apply sorted_le_cons in HS'.
      destruct HS as [Hx HS], HS' as [Hy HS'].
      assert (x = y) as ->.
      { assert (In x (y :: t')) by (apply (Permutation_in _ HP); now left).
        assert (In y (x :: t)) by (apply (Permutation_in _ (Permutation_sym HP)); now left).
        destruct H as [|H], H0 as [|H0]; auto.
        specialize (Hx y H0). specialize (Hy x H). lia. }
      f_equal. apply IH; auto. eapply Permutation_cons_inv; eauto.
Qed.
