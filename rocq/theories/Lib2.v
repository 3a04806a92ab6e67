(** More facts about lists and slices. *)
From Verif Require Export Base Lib.
From Coq Require Import ZifyBool ZifyNat.

Lemma NoDup_snoc {A} (l : list A) x : NoDup l -> ~ In x l -> NoDup (l ++ [x]).
Proof.
  intros HN Hx. apply (Permutation_NoDup (l := x :: l)); [|now constructor].
  apply (Permutation_cons_append l x).
Qed.

Lemma slice_cons {A} `{Dflt A} (l : list A) a b : a < b -> b <= length l ->
  slice l a b = l.[a] :: slice l (S a) b.
Proof.
  intros Hab Hb. apply list_ext.
  - simpl. rewrite !slice_length by lia. lia.
  - intros i Hi. rewrite slice_length in Hi by lia. rewrite aget_slice by lia.
    destruct i as [|i]; [now rewrite aget_cons_0, Nat.add_0_r|].
    rewrite aget_cons_S, aget_slice by lia. f_equal. lia.
Qed.

Lemma slice_upd_out {A} `{Dflt A} (l : list A) a b i v : i < a \/ b <= i -> b <= length l ->
  slice (upd l i v) a b = slice l a b.
Proof.
  intros Hi Hb. destruct (le_lt_dec b a) as [Hba|Hab]; [now rewrite !slice_nil|].
  apply list_ext.
  - rewrite !slice_length; rewrite ?upd_length; lia.
  - intros j Hj. rewrite slice_length in Hj by (rewrite ?upd_length; lia).
    rewrite !aget_slice by lia. apply aget_upd_ne. lia.
Qed.


(** * Counting sort positions

    Items [0..N) with keys [f i]; [cbase k] items have a smaller key; item [i] goes
    to position [cpos i] (its rank by key, ties by index). *)
Section CountSort.
Variables (N : nat) (f : nat -> nat).

Definition cbase (k : nat) : nat := cnt 0 N (fun i => f i <? k).
Definition cpos (i : nat) : nat := cbase (f i) + cnt 0 i (fun j => f j =? f i).

Lemma cbase_S k : cbase (S k) = cbase k + cnt 0 N (fun i => f i =? k).
Proof.
  unfold cbase, cnt. rewrite <- sum_r_add. apply sum_r_ext. intros i _.
  destruct (Nat.ltb_spec (f i) (S k)), (Nat.ltb_spec (f i) k), (Nat.eqb_spec (f i) k); simpl; lia.
Qed.

Lemma cbase_0 : cbase 0 = 0.
Proof. apply cnt_all_false. intros. now destruct (Nat.ltb_spec (f i) 0); [lia|]. Qed.

Lemma cbase_le k : cbase k <= N.
Proof. unfold cbase. pose proof (cnt_le 0 N (fun i => f i <? k)). lia. Qed.

Lemma cbase_mono k k' : k <= k' -> cbase k <= cbase k'.
Proof. intros Hk. apply cnt_mono. intros i _ H. apply Nat.ltb_lt in H. apply Nat.ltb_lt. lia. Qed.

Lemma cbase_all K : (forall i, i < N -> f i < K) -> cbase K = N.
Proof.
  intros H. unfold cbase. rewrite cnt_all_true; [lia|]. intros i Hi. apply Nat.ltb_lt. apply H. lia.
Qed.

Lemma cpos_lo i : cbase (f i) <= cpos i.
Proof. unfold cpos. lia. Qed.

Lemma cpos_hi i : i < N -> cpos i < cbase (S (f i)).
Proof.
  intros Hi. unfold cpos. rewrite cbase_S. rewrite (cnt_split 0 (S i) N) by lia.
  rewrite cnt_S by lia. rewrite Nat.eqb_refl. simpl. lia.
Qed.

Lemma cpos_lt i : i < N -> cpos i < N.
Proof. intros Hi. pose proof (cpos_hi i Hi). pose proof (cbase_le (S (f i))). lia. Qed.

Lemma cpos_mono i j : i < N -> j < N -> f i < f j \/ (f i = f j /\ i < j) -> cpos i < cpos j.
Proof.
  intros Hi Hj [H|[H Hij]].
  - pose proof (cpos_hi i Hi). pose proof (cbase_mono (S (f i)) (f j) H). pose proof (cpos_lo j). lia.
  - unfold cpos. rewrite H. rewrite (cnt_split 0 (S i) j) by lia. rewrite (cnt_S 0 i) by lia.
    destruct (Nat.eqb_spec (f i) (f j)); simpl; lia.
Qed.

Lemma cpos_inj i j : i < N -> j < N -> cpos i = cpos j -> i = j.
Proof.
  intros Hi Hj H. destruct (lt_eq_lt_dec (f i) (f j)) as [[L|L]|L].
  - pose proof (cpos_mono i j Hi Hj ltac:(lia)). lia.
  - destruct (lt_eq_lt_dec i j) as [[L'|L']|L']; auto.
    + pose proof (cpos_mono i j Hi Hj ltac:(lia)). lia.
    + pose proof (cpos_mono j i Hj Hi ltac:(lia)). lia.
  - pose proof (cpos_mono j i Hj Hi ltac:(lia)). lia.
Qed.

(** every position is taken *)
Lemma cpos_onto k : k < N -> exists i, i < N /\ cpos i = k.
Proof.
  intros Hk. apply (inj_onto N cpos); auto.
  - intros i Hi. now apply cpos_lt.
  - intros i j Hi Hj. now apply cpos_inj.
Qed.

(** the bucket of a position *)
Lemma cpos_bucket i k : i < N -> cbase k <= cpos i < cbase (S k) -> f i = k.
Proof.
  intros Hi Hk. pose proof (cpos_hi i Hi). pose proof (cpos_lo i).
  destruct (lt_eq_lt_dec (f i) k) as [[L|L]|L]; auto.
  - pose proof (cbase_mono (S (f i)) k L). lia.
  - pose proof (cbase_mono (S k) (f i) L). lia.
Qed.

End CountSort.

(** * Counting through lists *)
Lemma map_aget_seq {A} `{Dflt A} (l : list A) : map (aget l) (seq 0 (length l)) = l.
Proof.
  apply list_ext; rewrite map_length, seq_length; auto.
  intros i Hi. now rewrite aget_map_seq.
Qed.

Lemma filter_map_length {A B} (f : A -> B) (q : B -> bool) l :
  length (filter q (map f l)) = length (filter (fun x => q (f x)) l).
Proof. induction l as [|x t IH]; simpl; auto. destruct (q (f x)); simpl; auto. Qed.

Lemma cnt_filter a b q : cnt a b q = length (filter q (seq a (b - a))).
Proof.
  unfold cnt, sum_r. generalize (b - a) as k. intros k. revert a.
  induction k as [|k IH]; intros a; simpl; auto. rewrite IH. destruct (q a); simpl; auto.
Qed.

Lemma filter_length_list {A} `{Dflt A} (q : A -> bool) (l : list A) :
  length (filter q l) = cnt 0 (length l) (fun i => q l.[i]).
Proof.
  rewrite cnt_filter, Nat.sub_0_r. rewrite <- (map_aget_seq l) at 1. now rewrite filter_map_length.
Qed.

Lemma filter_same_length {A} (q : A -> bool) (l l' : list A) : NoDup l -> NoDup l' ->
  (forall x, q x = true -> (In x l <-> In x l')) -> length (filter q l) = length (filter q l').
Proof.
  intros H1 H2 H. apply Permutation_length. apply NoDup_Permutation.
  - now apply NoDup_filter.
  - now apply NoDup_filter.
  - intros x. rewrite !filter_In. split; intros [Hx Hq]; split; auto; now apply (H x Hq).
Qed.

Lemma aget_tl {A} `{Dflt A} (l : list A) i : (tl l).[i] = l.[S i].
Proof. destruct l; [destruct i; reflexivity|reflexivity]. Qed.

Lemma removelast_length {A} (l : list A) : length (removelast l) = length l - 1.
Proof.
  induction l as [|x t IH]; auto. destruct t as [|y t]; auto.
  change (length (removelast (x :: y :: t))) with (S (length (removelast (y :: t)))). rewrite IH. simpl. lia.
Qed.

Lemma firstn_slice {A} (l : list A) k : firstn k l = slice l 0 k.
Proof. unfold slice. now rewrite Nat.sub_0_r. Qed.

(** equality of slices of two arrays *)
Lemma slice_ext {A} `{Dflt A} (l l' : list A) a b a' b' :
  b <= length l -> b' <= length l' -> b - a = b' - a' ->
  (forall i, i < b - a -> l.[a + i] = l'.[a' + i]) -> slice l a b = slice l' a' b'.
Proof.
  intros Hb Hb' HE HH. destruct (le_lt_dec b a) as [L|L].
  - now rewrite !slice_nil by lia.
  - apply list_ext.
    + rewrite !slice_length; lia.
    + intros i Hi. rewrite slice_length in Hi by lia. rewrite !aget_slice by lia. auto.
Qed.

(** ** Partial correctness: the property holds of every successful result *)
Definition pc {A} (m : res A) (P : A -> Prop) : Prop := forall r, m = Ok r -> P r.

Lemma pc_bind {A B} (m : res A) (k : A -> res B) (P : B -> Prop) :
  pc m (fun a => pc (k a) P) -> pc (bind m k) P.
Proof. unfold pc. intros H r. destruct m as [a|e]; simpl; [now apply H|discriminate]. Qed.

Lemma pc_ret {A} (a : A) (P : A -> Prop) : P a -> pc (Ok a) P.
Proof. intros H r E. now inversion E; subst. Qed.

Lemma pc_any {A} (m : res A) (P : A -> Prop) : (forall r, P r) -> pc m P.
Proof. intros H r _. apply H. Qed.

Lemma pc_mono {A} (m : res A) (P P' : A -> Prop) : pc m P -> (forall r, P r -> P' r) -> pc m P'.
Proof. intros H H' r E. auto. Qed.

Lemma pc_wr {A} (l : list A) i v (P : list A -> Prop) :
  (forall l', length l' = length l -> P l') -> pc (wr l i v) P.
Proof.
  intros H r E. apply H. unfold wr in E. destruct (i <? length l); [|discriminate].
  inversion E. apply upd_length.
Qed.

Lemma pc_for {S} (I : S -> Prop) lo hi (body : nat -> S -> res S) s :
  I s -> (forall i s, I s -> pc (body i s) I) -> pc (for_ lo hi body s) I.
Proof.
  unfold for_. generalize (hi - lo) as k. intros k. revert lo s. induction k as [|k IH]; intros lo s HI HS; simpl.
  - now apply pc_ret.
  - apply pc_bind. eapply pc_mono; [now apply HS|]. intros s' HI'. now apply IH.
Qed.

Lemma pc_while {S} (I : S -> Prop) fuel (cond : S -> res bool) (body : S -> res S) s :
  I s -> (forall s, I s -> pc (body s) I) -> pc (while_ fuel cond body s) I.
Proof.
  revert s. induction fuel as [|f IH]; intros s HI HS; simpl.
  - intros r E. discriminate.
  - apply pc_bind. apply pc_any. intros [|].
    + apply pc_bind. eapply pc_mono; [now apply HS|]. intros s' HI'. now apply IH.
    + now apply pc_ret.
Qed.
