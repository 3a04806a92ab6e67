(** Loops over the columns of a compressed matrix; monotone bijections. *)
From Coq Require Import ZifyBool ZifyNat.
From Verif Require Export Base Lib Lib2.

(** nested loop over columns and positions; one invariant on the position *)
Lemma wp_cols {T} (I : nat -> T -> Prop) (body : nat -> nat -> T -> res T) (Ap : list nat) n s (Q : T -> Prop) :
  n < length Ap -> Ap.[0] = 0 -> (forall i, i < n -> Ap.[i] <= Ap.[S i]) ->
  I 0 s ->
  (forall i j s, i < n -> Ap.[i] <= j < Ap.[S i] -> I j s -> wp (body i j s) (I (S j))) ->
  (forall s, I Ap.[n] s -> Q s) ->
  wp (for_ 0 n (fun i s => a <- rd Ap i ;; b <- rd Ap (S i) ;; for_ a b (body i) s) s) Q.
Proof.
  intros HL H0 HM HI HB HQ. apply wp_for with (I := fun i s => I Ap.[i] s).
  - lia.
  - now rewrite H0.
  - intros i s1 Hi HI1. wp1. apply wp_rd; [lia|]. wp1. apply wp_rd; [lia|].
    specialize (HM i ltac:(lia)). apply wp_for with (I := I); auto.
    intros j s2 Hj HI2. apply (HB i j s2); auto; lia.
  - auto.
Qed.

(** the column of a position *)
Definition in_col (n : nat) (Ap : list nat) (j c : nat) : Prop := c < n /\ Ap.[c] <= j < Ap.[S c].

Lemma in_col_unique n Ap j c c' : (forall i, i < n -> Ap.[i] <= Ap.[S i]) ->
  in_col n Ap j c -> in_col n Ap j c' -> c = c'.
Proof. intros HM [H1 H2] [H3 H4]. eapply (bucket_unique (aget Ap) n); eauto. Qed.

Lemma in_col_exists n Ap j : Ap.[0] = 0 -> j < Ap.[n] -> exists c, in_col n Ap j c.
Proof.
  intros H0 Hj. destruct (bucket_exists (aget Ap) n j) as (c & Hc & Hk); try lia.
  exists c. split; auto.
Qed.

(** column of position [j], computed *)
Fixpoint col_of (n : nat) (Ap : list nat) (j : nat) : nat :=
  match n with 0 => 0 | S m => if Ap.[m] <=? j then m else col_of m Ap j end.

Lemma col_of_in n Ap j : Ap.[0] = 0 -> (forall i, i < n -> Ap.[i] <= Ap.[S i]) -> j < Ap.[n] ->
  in_col n Ap j (col_of n Ap j).
Proof.
  intros H0 HM. induction n as [|n IH]; intros Hj; [lia|]. simpl.
  destruct (Nat.leb_spec Ap.[n] j) as [L|L].
  - split; [lia|]. split; auto.
  - destruct IH as [H1 H2]; auto. split; [lia|auto].
Qed.

Lemma in_col_col_of n Ap j c : Ap.[0] = 0 -> (forall i, i < n -> Ap.[i] <= Ap.[S i]) ->
  in_col n Ap j c -> col_of n Ap j = c.
Proof.
  intros H0 HM Hc. assert (j < Ap.[n]).
  { destruct Hc as [Hc Hj]. assert (Ap.[S c] <= Ap.[n]) by (apply (mono_le (aget Ap) n); auto; lia). lia. }
  eapply in_col_unique; eauto. now apply col_of_in.
Qed.

Lemma in_col_mono n Ap j j' c c' : (forall i, i < n -> Ap.[i] <= Ap.[S i]) ->
  in_col n Ap j c -> in_col n Ap j' c' -> j <= j' -> c <= c'.
Proof.
  intros HM [Hc Hj] [Hc' Hj'] L. destruct (le_lt_dec c c'); auto.
  assert (Ap.[S c'] <= Ap.[c]) by (apply (mono_le (aget Ap) n); auto; lia). lia.
Qed.

(** a strictly increasing map of [0..N) into itself is the identity *)
Lemma mono_id N (g : nat -> nat) : (forall i, i < N -> g i < N) ->
  (forall i j, i < j -> j < N -> g i < g j) -> forall i, i < N -> g i = i.
Proof.
  intros HB HM.
  assert (G1 : forall i, i < N -> i <= g i).
  { induction i as [|i IH]; intros Hi; [lia|]. specialize (IH ltac:(lia)). specialize (HM i (S i) ltac:(lia) Hi). lia. }
  assert (G2 : forall k i, i + k < N -> g i + k <= g (i + k)).
  { induction k as [|k IH]; intros i Hi; [rewrite !Nat.add_0_r; lia|].
    specialize (IH i ltac:(lia)). specialize (HM (i + k) (i + S k) ltac:(lia) ltac:(lia)). lia. }
  intros i Hi. specialize (G1 i Hi). specialize (G2 (N - 1 - i) i ltac:(lia)).
  specialize (HB (i + (N - 1 - i)) ltac:(lia)). lia.
Qed.

(** * Lists of pairs per bucket *)

(** positions of all columns, in order *)
Lemma seq_cols (Ap : list nat) n : Ap.[0] = 0 -> (forall i, i < n -> Ap.[i] <= Ap.[S i]) ->
  seq 0 Ap.[n] = flat_map (fun c => seq Ap.[c] (Ap.[S c] - Ap.[c])) (seq 0 n).
Proof.
  intros H0 HM. induction n as [|n IH].
  - now rewrite H0.
  - rewrite seq_S, flat_map_app, <- IH by (intros; apply HM; lia). cbn [flat_map]. rewrite app_nil_r, Nat.add_0_l.
    specialize (HM n ltac:(lia)). replace Ap.[S n] with (Ap.[n] + (Ap.[S n] - Ap.[n])) at 1 by lia.
    rewrite seq_app. reflexivity.
Qed.

Lemma map_flat_map {A B C} (f : B -> C) (g : A -> list B) l : map f (flat_map g l) = flat_map (fun x => map f (g x)) l.
Proof. induction l as [|x t IH]; simpl; auto. now rewrite map_app, IH. Qed.

Lemma filter_flat_map {A B} (p : B -> bool) (g : A -> list B) l :
  filter p (flat_map g l) = flat_map (fun x => filter p (g x)) l.
Proof. induction l as [|x t IH]; simpl; auto. now rewrite filter_app, IH. Qed.

Lemma flat_map_ext_in {A B} (f g : A -> list B) l : (forall x, In x l -> f x = g x) -> flat_map f l = flat_map g l.
Proof. induction l as [|x t IH]; simpl; intros H; auto. now rewrite H, IH by auto. Qed.

Lemma filter_map_comm {A B} (p : B -> bool) (f : A -> B) l : filter p (map f l) = map f (filter (fun x => p (f x)) l).
Proof. induction l as [|x t IH]; simpl; auto. rewrite IH. now destruct (p (f x)). Qed.

Lemma filter_ext_in' {A} (p q : A -> bool) l : (forall x, In x l -> p x = q x) -> filter p l = filter q l.
Proof. apply filter_ext_in. Qed.

(** positions of the items of one key, in order *)
Lemma cpos_bucket_seq N f k M : M <= N ->
  map (cpos N f) (filter (fun j => f j =? k) (seq 0 M)) = seq (cbase N f k) (cnt 0 M (fun j => f j =? k)).
Proof.
  induction M as [|M IH]; intros HM; [reflexivity|].
  rewrite seq_S, filter_app, map_app, IH by lia. rewrite cnt_S by lia. rewrite seq_app. f_equal. cbn [filter Nat.add].
  destruct (Nat.eqb_spec (f M) k) as [E|E]; simpl; auto. unfold cpos. rewrite E. reflexivity.
Qed.

Lemma bucket_slice {A} N f (out g : nat -> A) k :
  (forall j, j < N -> out (cpos N f j) = g j) ->
  map out (seq (cbase N f k) (cbase N f (S k) - cbase N f k)) = map g (filter (fun j => f j =? k) (seq 0 N)).
Proof.
  intros H. rewrite cbase_S, Nat.add_comm, Nat.add_sub. rewrite <- cpos_bucket_seq by lia. rewrite map_map.
  apply map_ext_in. intros j Hj. apply filter_In in Hj. destruct Hj as [Hj _]. apply in_seq in Hj. apply H. lia.
Qed.
