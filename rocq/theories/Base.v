(** Base: outcome monad, bounds-checked arrays, loops, and a weakest
    precondition calculus for them.  Nothing here models /repo code; it is the
    vocabulary the models are written in. *)
From Coq Require Export List Arith ZArith Lia Bool Permutation.
From Coq Require Import ZifyBool ZifyNat.
Export ListNotations.

(** * Outcomes *)

(** [OOB]: read or write outside an array / vector / pop of an empty stack.
    [Fuel]: a loop did not end within the fuel given by the model.
    [Throw]: a C++ exception leaves the function.
    [DivZero]: integer division by zero.
    [Uninit]: an uninitialised value is used. *)
Inductive err := OOB | Fuel | Throw | DivZero | Uninit.

Inductive res (A : Type) := Ok (a : A) | Err (e : err).
Arguments Ok {A} a.
Arguments Err {A} e.

Definition bind {A B} (m : res A) (k : A -> res B) : res B :=
  match m with Ok a => k a | Err e => Err e end.

Notation "x <- m ;; k" := (bind m (fun x => k))
  (at level 61, m at next level, right associativity).
Notation "' p <- m ;; k" := (bind m (fun x => match x with p => k end))
  (at level 61, p pattern, m at next level, right associativity).

(** * Arrays *)

Class Dflt (A : Type) := dflt : A.
#[global] Instance Dflt_nat : Dflt nat := 0.
#[global] Instance Dflt_bool : Dflt bool := false.
#[global] Instance Dflt_Z : Dflt Z := 0%Z.
#[global] Instance Dflt_list {A} : Dflt (list A) := [].
#[global] Instance Dflt_option {A} : Dflt (option A) := None.
#[global] Instance Dflt_prod {A B} `{Dflt A} `{Dflt B} : Dflt (A * B) := (dflt, dflt).

Definition aget {A} `{Dflt A} (l : list A) (i : nat) : A := nth i l dflt.
Notation "l .[ i ]" := (aget l i) (at level 2, left associativity, format "l .[ i ]").

Definition rd {A} (l : list A) (i : nat) : res A :=
  match nth_error l i with Some a => Ok a | None => Err OOB end.

Fixpoint upd {A} (l : list A) (i : nat) (v : A) : list A :=
  match l, i with
  | [], _ => []
  | _ :: t, 0 => v :: t
  | h :: t, S i' => h :: upd t i' v
  end.

Definition wr {A} (l : list A) (i : nat) (v : A) : res (list A) :=
  if i <? length l then Ok (upd l i v) else Err OOB.

(** Integer index access: a negative index is out of bounds. *)
Definition rdZ {A} (l : list A) (i : Z) : res A :=
  if (i <? 0)%Z then Err OOB else rd l (Z.to_nat i).
Definition wrZ {A} (l : list A) (i : Z) (v : A) : res (list A) :=
  if (i <? 0)%Z then Err OOB else wr l (Z.to_nat i) v.

(** [v.back()] and [v.pop_back()]; undefined on an empty vector. *)
Definition back {A} (l : list A) : res A :=
  match length l with 0 => Err OOB | S k => rd l k end.
Definition pop_back {A} (l : list A) : res (list A) :=
  match length l with 0 => Err OOB | S _ => Ok (removelast l) end.

(** * Loops *)

Fixpoint for_n {S} (k i : nat) (body : nat -> S -> res S) (s : S) : res S :=
  match k with
  | 0 => Ok s
  | Datatypes.S k' => bind (body i s) (fun s' => for_n k' (Datatypes.S i) body s')
  end.

(** for (i = lo; i < hi; ++i) body *)
Definition for_ {S} (lo hi : nat) (body : nat -> S -> res S) (s : S) : res S :=
  for_n (hi - lo) lo body s.

(** the same with [break]: the body returns [true] to leave the loop *)
Fixpoint forb_n {S} (k i : nat) (body : nat -> S -> res (bool * S)) (s : S) : res S :=
  match k with
  | 0 => Ok s
  | Datatypes.S k' =>
      bind (body i s) (fun bs => if fst bs then Ok (snd bs)
                                 else forb_n k' (Datatypes.S i) body (snd bs))
  end.
Definition forb_ {S} (lo hi : nat) (body : nat -> S -> res (bool * S)) (s : S) : res S :=
  forb_n (hi - lo) lo body s.

(** for (x : l) body *)
Fixpoint foreach {A S} (l : list A) (body : A -> S -> res S) (s : S) : res S :=
  match l with
  | [] => Ok s
  | x :: t => bind (body x s) (fun s' => foreach t body s')
  end.

(** while (cond) body *)
Fixpoint while_ {S} (fuel : nat) (cond : S -> res bool) (body : S -> res S) (s : S) : res S :=
  match fuel with
  | 0 => Err Fuel
  | Datatypes.S f =>
      bind (cond s) (fun b => if b then bind (body s) (fun s' => while_ f cond body s') else Ok s)
  end.

(** * Weakest preconditions (total correctness) *)

Definition wp {A} (m : res A) (Q : A -> Prop) : Prop :=
  match m with Ok a => Q a | Err _ => False end.

Lemma wp_ok A (m : res A) Q : wp m Q <-> exists a, m = Ok a /\ Q a.
Proof.
  destruct m as [a|e]; simpl; split; intros H; eauto.
  - destruct H as [b [E Hb]]. now inversion E.
  - contradiction.
  - destruct H as [b [E Hb]]. discriminate.
Qed.

Lemma wp_mono A (m : res A) (P Q : A -> Prop) :
  wp m P -> (forall a, P a -> Q a) -> wp m Q.
Proof. destruct m; simpl; auto. Qed.

Lemma wp_conj A (m : res A) (P Q : A -> Prop) :
  wp m P -> wp m Q -> wp m (fun a => P a /\ Q a).
Proof. destruct m; simpl; auto. Qed.

Lemma wp_bind A B (m : res A) (k : A -> res B) Q :
  wp m (fun a => wp (k a) Q) -> wp (bind m k) Q.
Proof. destruct m; simpl; auto. Qed.

Lemma wp_bind_inv A B (m : res A) (k : A -> res B) Q :
  wp (bind m k) Q -> wp m (fun a => wp (k a) Q).
Proof. destruct m; simpl; auto. Qed.

Lemma wp_ret A (a : A) (Q : A -> Prop) : Q a -> wp (Ok a) Q.
Proof. auto. Qed.

Section Arr.
Context {A : Type} `{DA : Dflt A}.

Lemma upd_length (l : list A) i v : length (upd l i v) = length l.
Proof. revert i; induction l as [|h t IH]; intros [|i]; simpl; auto. Qed.

Lemma aget_upd_eq (l : list A) i v : i < length l -> (upd l i v).[i] = v.
Proof.
  unfold aget. revert i; induction l as [|h t IH]; intros [|i] Hi; simpl in *; try lia; auto.
  apply IH; lia.
Qed.

Lemma aget_upd_ne (l : list A) i j v : i <> j -> (upd l i v).[j] = l.[j].
Proof.
  unfold aget. revert i j; induction l as [|h t IH]; intros [|i] [|j] Hij; simpl; auto; try lia.
Qed.

Lemma aget_upd (l : list A) i j v : i < length l ->
  (upd l i v).[j] = if j =? i then v else l.[j].
Proof.
  intros Hi. destruct (Nat.eqb_spec j i) as [->|Hn].
  - now apply aget_upd_eq.
  - apply aget_upd_ne; lia.
Qed.

Lemma nth_error_aget (l : list A) i : i < length l -> nth_error l i = Some l.[i].
Proof. intros Hi. unfold aget. now apply nth_error_nth'. Qed.

Lemma aget_nth_error (l : list A) i v : nth_error l i = Some v -> l.[i] = v.
Proof. intros H. unfold aget. now apply nth_error_nth. Qed.

Lemma rd_ok (l : list A) i : i < length l -> rd l i = Ok l.[i].
Proof. intros Hi. unfold rd. now rewrite nth_error_aget. Qed.

Lemma wr_ok (l : list A) i v : i < length l -> wr l i v = Ok (upd l i v).
Proof. intros Hi. unfold wr. destruct (Nat.ltb_spec i (length l)); auto; lia. Qed.

Lemma rd_oob (l : list A) i : length l <= i -> rd l i = Err OOB.
Proof. intros Hi. unfold rd. now rewrite (proj2 (nth_error_None l i)). Qed.

Lemma wr_oob (l : list A) i v : length l <= i -> wr l i v = Err OOB.
Proof. intros Hi. unfold wr. destruct (Nat.ltb_spec i (length l)); auto; lia. Qed.

Lemma wp_rd (l : list A) i (Q : A -> Prop) : i < length l -> Q l.[i] -> wp (rd l i) Q.
Proof. intros Hi HQ. now rewrite rd_ok. Qed.

Lemma wp_wr (l : list A) i v (Q : list A -> Prop) :
  i < length l -> Q (upd l i v) -> wp (wr l i v) Q.
Proof. intros Hi HQ. now rewrite wr_ok. Qed.

Lemma aget_app1 (l l' : list A) i : i < length l -> (l ++ l').[i] = l.[i].
Proof. intros. unfold aget. now apply app_nth1. Qed.

Lemma aget_app2 (l l' : list A) i : length l <= i -> (l ++ l').[i] = l'.[i - length l].
Proof. intros. unfold aget. now apply app_nth2. Qed.

Lemma aget_app_last (l : list A) x : (l ++ [x]).[length l] = x.
Proof. rewrite aget_app2 by lia. now rewrite Nat.sub_diag. Qed.

Lemma aget_repeat (x : A) n i : i < n -> (repeat x n).[i] = x.
Proof.
  unfold aget. revert i; induction n as [|n IH]; intros [|i] Hi; simpl; try lia; auto.
  apply IH; lia.
Qed.

Lemma aget_In (l : list A) i : i < length l -> In l.[i] l.
Proof. intros. unfold aget. now apply nth_In. Qed.

Lemma In_aget (l : list A) x : In x l -> exists i, i < length l /\ l.[i] = x.
Proof. intros Hx. destruct (In_nth l x dflt Hx) as [i [Hi E]]. eauto. Qed.

Lemma list_ext (l l' : list A) :
  length l = length l' -> (forall i, i < length l -> l.[i] = l'.[i]) -> l = l'.
Proof. intros HL HE. apply (nth_ext l l' dflt dflt HL). intros n Hn. now apply HE. Qed.

Lemma aget_overflow (l : list A) i : length l <= i -> l.[i] = dflt.
Proof. intros. unfold aget. now apply nth_overflow. Qed.

Lemma aget_map_seq (f : nat -> A) n i : i < n -> (map f (seq 0 n)).[i] = f i.
Proof.
  intros Hi. unfold aget.
  rewrite (nth_indep _ dflt (f 0)) by (rewrite map_length, seq_length; lia).
  rewrite (map_nth f (seq 0 n) 0 i). now rewrite seq_nth.
Qed.

Lemma NoDup_aget (l : list A) i j :
  NoDup l -> i < length l -> j < length l -> l.[i] = l.[j] -> i = j.
Proof. intros HN Hi Hj E. unfold aget in E. eapply NoDup_nth; eauto. Qed.

Lemma NoDup_of_aget (l : list A) :
  (forall i j, i < length l -> j < length l -> l.[i] = l.[j] -> i = j) -> NoDup l.
Proof. intros. apply (NoDup_nth l dflt). unfold aget in *. auto. Qed.

Lemma back_ok (l : list A) : 0 < length l -> back l = Ok l.[length l - 1].
Proof.
  intros Hl. unfold back. destruct (length l) as [|k] eqn:E; [lia|].
  rewrite rd_ok by lia. do 2 f_equal. lia.
Qed.

Lemma wp_back (l : list A) (Q : A -> Prop) : 0 < length l -> Q l.[length l - 1] -> wp (back l) Q.
Proof. intros. now rewrite back_ok. Qed.

Lemma wp_pop_back (l : list A) (Q : list A -> Prop) :
  0 < length l -> Q (removelast l) -> wp (pop_back l) Q.
Proof. intros Hl HQ. unfold pop_back. destruct (length l); [lia|exact HQ]. Qed.

End Arr.

Lemma aget_nil {A} `{Dflt A} i : ([] : list A).[i] = dflt.
Proof. destruct i; reflexivity. Qed.

Lemma aget_cons_0 {A} `{Dflt A} x (l : list A) : (x :: l).[0] = x.
Proof. reflexivity. Qed.
Lemma aget_cons_S {A} `{Dflt A} x (l : list A) i : (x :: l).[S i] = l.[i].
Proof. reflexivity. Qed.

Lemma aget_map {A B} `{Dflt A} `{Dflt B} (f : A -> B) (l : list A) i :
  i < length l -> (map f l).[i] = f l.[i].
Proof.
  intros Hi. unfold aget. rewrite (nth_indep _ dflt (f dflt)) by (rewrite map_length; lia).
  apply map_nth.
Qed.

Lemma aget_seq a n i : i < n -> (seq a n).[i] = a + i.
Proof. intros. unfold aget. now apply seq_nth. Qed.

Section LoopRules.
Context {S : Type}.

Lemma wp_for_n (I : nat -> S -> Prop) (body : nat -> S -> res S) k i s (Q : S -> Prop) :
  I i s ->
  (forall j s, i <= j < i + k -> I j s -> wp (body j s) (fun s' => I (Datatypes.S j) s')) ->
  (forall s, I (i + k) s -> Q s) ->
  wp (for_n k i body s) Q.
Proof.
  revert i s; induction k as [|k IH]; intros i s HI Hb HQ; simpl.
  - apply HQ. now rewrite Nat.add_0_r.
  - apply wp_bind. eapply wp_mono; [apply Hb; [lia|exact HI]|].
    intros s' HI'. apply IH; auto.
    + intros j s0 Hj. apply Hb. lia.
    + intros s0 H0. apply HQ. now replace (i + Datatypes.S k) with (Datatypes.S i + k) by lia.
Qed.

Lemma wp_for (I : nat -> S -> Prop) (body : nat -> S -> res S) lo hi s (Q : S -> Prop) :
  lo <= hi ->
  I lo s ->
  (forall j s, lo <= j < hi -> I j s -> wp (body j s) (fun s' => I (Datatypes.S j) s')) ->
  (forall s, I hi s -> Q s) ->
  wp (for_ lo hi body s) Q.
Proof.
  intros Hle HI Hb HQ. unfold for_. apply (wp_for_n I); auto.
  - intros j s0 Hj. apply Hb. lia.
  - intros s0. replace (lo + (hi - lo)) with hi by lia. apply HQ.
Qed.

Lemma for_nil (body : nat -> S -> res S) lo hi s : hi <= lo -> for_ lo hi body s = Ok s.
Proof. intros. unfold for_. now replace (hi - lo) with 0 by lia. Qed.

Lemma for_n_split (body : nat -> S -> res S) k1 k2 i s :
  for_n (k1 + k2) i body s = bind (for_n k1 i body s) (fun s' => for_n k2 (i + k1) body s').
Proof.
  revert i s; induction k1 as [|k1 IH]; intros i s; simpl.
  - now rewrite Nat.add_0_r.
  - destruct (body i s) as [s'|e]; simpl; auto. rewrite IH.
    now replace (Datatypes.S i + k1) with (i + Datatypes.S k1) by lia.
Qed.

Lemma for_split (body : nat -> S -> res S) a b c s :
  a <= b -> b <= c ->
  for_ a c body s = bind (for_ a b body s) (fun s' => for_ b c body s').
Proof.
  intros. unfold for_. replace (c - a) with ((b - a) + (c - b)) by lia.
  rewrite for_n_split. now replace (a + (b - a)) with b by lia.
Qed.

Lemma for_step (body : nat -> S -> res S) lo hi s :
  lo < hi -> for_ lo hi body s = bind (body lo s) (fun s' => for_ (Datatypes.S lo) hi body s').
Proof.
  intros. unfold for_. replace (hi - lo) with (Datatypes.S (hi - Datatypes.S lo)) by lia.
  reflexivity.
Qed.

(** [forb_]: [I] holds while looping, [J] when the loop is left (by [break] or
    normally). *)
Lemma wp_forb_n (I : nat -> S -> Prop) (body : nat -> S -> res (bool * S)) k i s (Q : S -> Prop) :
  I i s ->
  (forall j s, i <= j < i + k -> I j s ->
     wp (body j s) (fun bs => if fst bs then Q (snd bs) else I (Datatypes.S j) (snd bs))) ->
  (forall s, I (i + k) s -> Q s) ->
  wp (forb_n k i body s) Q.
Proof.
  revert i s; induction k as [|k IH]; intros i s HI Hb HQ; simpl.
  - apply HQ. now rewrite Nat.add_0_r.
  - apply wp_bind. eapply wp_mono; [apply Hb; [lia|exact HI]|].
    intros [b s'] HI'; simpl in *. destruct b; [exact HI'|].
    apply IH; auto.
    + intros j s0 Hj. apply Hb. lia.
    + intros s0 H0. apply HQ. now replace (i + Datatypes.S k) with (Datatypes.S i + k) by lia.
Qed.

Lemma wp_forb (I : nat -> S -> Prop) (body : nat -> S -> res (bool * S)) lo hi s (Q : S -> Prop) :
  lo <= hi ->
  I lo s ->
  (forall j s, lo <= j < hi -> I j s ->
     wp (body j s) (fun bs => if fst bs then Q (snd bs) else I (Datatypes.S j) (snd bs))) ->
  (forall s, I hi s -> Q s) ->
  wp (forb_ lo hi body s) Q.
Proof.
  intros Hle HI Hb HQ. unfold forb_. apply (wp_forb_n I); auto.
  - intros j s0 Hj. apply Hb. lia.
  - intros s0. replace (lo + (hi - lo)) with hi by lia. apply HQ.
Qed.

Lemma wp_while (I : S -> Prop) (m : S -> nat) fuel (cond : S -> res bool) (body : S -> res S) s (Q : S -> Prop) :
  I s -> m s < fuel ->
  (forall s, I s ->
     wp (cond s) (fun b => if b then wp (body s) (fun s' => I s' /\ m s' < m s) else Q s)) ->
  wp (while_ fuel cond body s) Q.
Proof.
  revert s; induction fuel as [|f IH]; intros s HI Hm Hb; simpl; [lia|].
  apply wp_bind. eapply wp_mono; [apply Hb; exact HI|].
  intros [|] Hs; [|exact Hs].
  apply wp_bind. eapply wp_mono; [exact Hs|].
  intros s' [HI' Hm']. apply IH; auto. lia.
Qed.

End LoopRules.

Lemma wp_foreach {A S} (I : list A -> S -> Prop) (l : list A) (body : A -> S -> res S) s (Q : S -> Prop) :
  I [] s ->
  (forall pre x post s, l = pre ++ x :: post -> I pre s ->
      wp (body x s) (fun s' => I (pre ++ [x]) s')) ->
  (forall s, I l s -> Q s) ->
  wp (foreach l body s) Q.
Proof.
  intros H0 Hb HQ.
  assert (G : forall post pre s, l = pre ++ post -> I pre s -> wp (foreach post body s) Q).
  { induction post as [|x post IH]; intros pre s0 E HI; simpl.
    - apply HQ. rewrite E, app_nil_r. exact HI.
    - apply wp_bind. eapply wp_mono; [eapply Hb; eauto|].
      intros s' HI'. apply (IH (pre ++ [x])); auto. now rewrite <- app_assoc. }
  apply (G l []); auto.
Qed.

(** * Stepping tactics *)

Ltac wp1 :=
  match goal with
  | |- wp (bind _ _) _ => apply wp_bind
  | |- wp (Ok _) _ => apply wp_ret
  | |- wp (rd _ _) _ => apply wp_rd
  | |- wp (wr _ _ _) _ => apply wp_wr
  end.

Ltac splits := repeat match goal with |- _ /\ _ => split end.
