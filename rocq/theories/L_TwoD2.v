(** Executing the reordered iterations. *)
From Verif Require Import Base Lib Lib2 Spec SpecSolve SpecTwoD M_TwoD M_SpTRSV L_SpTRSV L_TwoD.
From Coq Require Import ZifyBool ZifyNat Permutation Sorted.

Definition row_of (e : iter) : nat := fst (fst e).

Section Run.
Context {V : Type} {DV : Dflt V}.
Variable f : nat -> nat -> nat -> V -> V -> V.

Lemma run_app l1 l2 x : run_iters f (l1 ++ l2) x = run_iters f l2 (run_iters f l1 x).
Proof. unfold run_iters. apply fold_left_app. Qed.

Lemma run_cons i k j l x : run_iters f ((i, k, j) :: l) x = run_iters f l (upd x i (f i k j x.[i] x.[j])).
Proof. reflexivity. Qed.

Lemma run_length l x : length (run_iters f l x) = length x.
Proof. revert x. induction l as [|[[i k] j] t IH]; intros x; auto. rewrite run_cons, IH. apply upd_length. Qed.

Lemma run_other l x j : (forall e, In e l -> row_of e <> j) -> (run_iters f l x).[j] = x.[j].
Proof.
  revert x. induction l as [|[[i k] c] t IH]; intros x HN; auto. rewrite run_cons, IH.
  - apply aget_upd_ne. apply (HN (i, k, c)). now left.
  - intros e He. apply HN. now right.
Qed.

(** what an iteration reads of another row is final *)
Fixpoint settled (l : list iter) : Prop :=
  match l with
  | [] => True
  | (i, _, j) :: t => (j <> i -> forall e, In e t -> row_of e <> j) /\ settled t
  end.

Definition acc (X : list V) (i : nat) (l : list iter) (v : V) : V :=
  fold_left (fun v '(_, k, j) => f i k j v (if j =? i then v else X.[j])) (filter (fun e => row_of e =? i) l) v.

Lemma run_value l x i : settled l -> i < length x ->
  (run_iters f l x).[i] = acc (run_iters f l x) i l x.[i].
Proof.
  revert x. induction l as [|[[a k] j] t IH]; intros x HS Hi; [reflexivity|].
  destruct HS as [HS1 HS2]. rewrite run_cons. set (x' := upd x a (f a k j x.[a] x.[j])).
  rewrite IH at 1 by (auto; unfold x'; rewrite upd_length; auto). unfold acc. cbn [filter]. change (row_of (a, k, j)) with a.
  destruct (Nat.eqb_spec a i) as [->|Hne].
  - cbn [fold_left]. f_equal. unfold x'. rewrite aget_upd_eq by auto. f_equal. destruct (Nat.eqb_spec j i) as [->|Hj]; auto.
    fold x'. rewrite run_other; [|intros e He; now apply HS1]. unfold x'. now rewrite aget_upd_ne by auto.
  - unfold x'. now rewrite aget_upd_ne by auto.
Qed.

Lemma run_same l1 l2 x : settled l1 -> settled l2 ->
  (forall i, filter (fun e => row_of e =? i) l1 = filter (fun e => row_of e =? i) l2) ->
  (forall e, In e l1 -> snd e <= row_of e) ->
  run_iters f l1 x = run_iters f l2 x.
Proof.
  intros S1 S2 HF HL. apply list_ext; [now rewrite !run_length|]. intros i. rewrite run_length. 
  induction i as [i IH] using lt_wf_ind. intros Hi. rewrite !run_value by auto. unfold acc. rewrite <- HF.
  set (X1 := run_iters f l1 x) in *. set (X2 := run_iters f l2 x) in *. generalize x.[i] as v.
  assert (HL' : forall e, In e (filter (fun e => row_of e =? i) l1) -> snd e <= i).
  { intros e He. apply filter_In in He. destruct He as [He E]. specialize (HL e He). lia. }
  induction (filter _ l1) as [|[[a k] j] t IHt]; intros v; auto. cbn [fold_left].
  assert (Hj : j <= i) by (apply (HL' (a, k, j)); now left).
  rewrite IHt by (intros e He; apply HL'; now right). f_equal. destruct (Nat.eqb_spec j i); auto. rewrite IH by lia. auto.
Qed.

End Run.

Lemma settled_column_major l : StronglySorted before2 l -> (forall e, In e l -> snd e <= row_of e) -> settled l.
Proof.
  induction 1 as [|[[i k] j] t HS IH HF]; intros HL; [exact I|]. split; [|apply IH; intros; apply HL; now right].
  intros Hj [[a k'] c] He. rewrite Forall_forall in HF. specialize (HF _ He).
  pose proof (HL (i, k, j) (or_introl eq_refl)). pose proof (HL _ (or_intror He)). unfold row_of in *. simpl in *. lia.
Qed.

Lemma settled_rows l : StronglySorted rowk l -> (forall e, In e l -> snd e <= row_of e) -> settled l.
Proof.
  induction 1 as [|[[i k] j] t HS IH HF]; intros HL; [exact I|]. split; [|apply IH; intros; apply HL; now right].
  intros Hj [[a k'] c] He. rewrite Forall_forall in HF. specialize (HF _ He).
  pose proof (HL (i, k, j) (or_introl eq_refl)). unfold row_of in *. simpl in *. lia.
Qed.

Section Tiles.
Variables (n : nat) (Lp Li : list nat).
(** no entry right of the diagonal *)
Hypothesis LO : forall i k, i < n -> Lp.[i] <= k < Lp.[S i] -> Li.[k] <= i.
Hypothesis SO : sorted_cols n Lp Li.

Lemma filter_sorted l i : StronglySorted rowk l ->
  (forall e, In e l -> exists i k, i < n /\ Lp.[i] <= k < Lp.[S i] /\ e = (i, k, Li.[k])) ->
  filter (fun e => row_of e =? i) (stable_sort l) = filter (fun e => row_of e =? i) l.
Proof.
  intros HS HE. apply (sorted_perm_eq before2).
  - apply before2_asym.
  - apply sorted_filter. now apply stable_sort_sorted.
  - induction HS as [|x t HS IH HF]; simpl; [constructor|].
    specialize (IH ltac:(intros; apply HE; now right)). destruct (Nat.eqb_spec (row_of x) i) as [Ex|]; auto.
    constructor; auto. apply Forall_forall. intros z Hz. apply filter_In in Hz. destruct Hz as [Hz Ez].
    rewrite Forall_forall in HF. specialize (HF z Hz).
    destruct (HE x (or_introl eq_refl)) as (i1 & k1 & Hi1 & Hk1 & ->). destruct (HE z (or_intror Hz)) as (i2 & k2 & Hi2 & Hk2 & ->).
    unfold row_of in *. simpl in *. assert (i2 = i1) by lia. subst i2. left. apply (SO i1); lia.
  - apply perm_filter. symmetry. apply stable_sort_perm.
Qed.

Lemma run_tile {V} {DV : Dflt V} (f : nat -> nat -> nat -> V -> V -> V) s m x : s + m <= n ->
  run_iters f (stable_sort (rows_iters Lp Li (seq s m))) x = run_iters f (rows_iters Lp Li (seq s m)) x.
Proof.
  intros Hsm.
  assert (HE : forall e, In e (rows_iters Lp Li (seq s m)) -> exists i k, i < n /\ Lp.[i] <= k < Lp.[S i] /\ e = (i, k, Li.[k])).
  { intros e He. apply in_rows_iters in He. destruct He as (i & k & Hi & Hk & ->). apply in_seq in Hi. exists i, k. splits; auto; lia. }
  assert (HL : forall e, In e (rows_iters Lp Li (seq s m)) -> snd e <= row_of e).
  { intros e He. apply HE in He. destruct He as (i & k & Hi & Hk & ->). now apply LO. }
  assert (HL' : forall e, In e (stable_sort (rows_iters Lp Li (seq s m))) -> snd e <= row_of e).
  { intros e He. apply HL. eapply Permutation_in; [symmetry; apply stable_sort_perm|auto]. }
  pose proof (run_sorted Lp Li s m) as HS. apply run_same; auto.
  - apply settled_column_major; auto. now apply stable_sort_sorted.
  - now apply settled_rows.
  - intros i. now apply filter_sorted.
Qed.

Lemma run_tiles {V} {DV : Dflt V} (f : nat -> nat -> nat -> V -> V -> V) rs x :
  (forall r, In r rs -> a_run r) -> (forall r i, In r rs -> In i r -> i < n) ->
  run_iters f (concat (map stable_sort (map (rows_iters Lp Li) rs))) x = run_iters f (rows_iters Lp Li (concat rs)) x.
Proof.
  revert x. induction rs as [|r t IH]; intros x HR HB; auto. cbn [map concat]. rewrite rows_iters_app, !run_app.
  assert (E : forall x, run_iters f (stable_sort (rows_iters Lp Li r)) x = run_iters f (rows_iters Lp Li r) x).
  { intros x0. destruct (HR r (or_introl eq_refl)) as (s & m & ->). destruct m as [|m]; [reflexivity|]. apply run_tile.
    assert (In (s + m) (seq s (S m))) by (apply in_seq; lia). specialize (HB _ (s + m) (or_introl eq_refl) H). lia. }
  rewrite E. apply IH.
  - intros; apply HR; now right.
  - intros r' i Hr. apply HB. now right.
Qed.

End Tiles.

(** * The solve, row by row *)

Section Solve.
Context {V : Type} {DV : Dflt V}.
Variables (fms : V -> V -> V -> V) (quo : V -> V -> V).
Variables (n : nat) (Lp Li : list nat) (Lx : list V).
Hypothesis WR : wf_rows n Lp Li.
Hypothesis HX : Lp.[n] <= length Lx.

Notation sit := (solve_iter fms quo Lp Lx).

Lemma solve_row_run i x : i < n -> n <= length x ->
  solve_row fms quo Lp Li Lx i x = Ok (run_iters sit (row_iters Lp Li i) x).
Proof.
  intros Hi Hx. pose proof WR as [(W1 & W2 & W3 & W4 & W5) WD].
  assert (G : wp (solve_row fms quo Lp Li Lx i x) (fun r => r = run_iters sit (row_iters Lp Li i) x)).
  { specialize (WD i Hi). pose proof (mono_le (aget Lp) n W3 (S i) n ltac:(lia) ltac:(lia)) as HM.
    unfold solve_row. wp1. wp1; [lia|]. wp1. wp1; [lia|]. wp1.
    apply wp_for with (I := fun k y => y = run_iters sit (map (fun k => (i, k, Li.[k])) (seq Lp.[i] (k - Lp.[i]))) x); [lia| | |].
    - now rewrite Nat.sub_diag.
    - intros k y Hk ->. set (y := run_iters _ _ _). assert (length y = length x) by apply run_length.
      pose proof (W5 k ltac:(lia)). wp1. wp1; [lia|]. wp1. wp1; [lia|]. wp1. wp1; [lia|]. wp1. wp1; [lia|]. wp1; [lia|].
      replace (S k - Lp.[i]) with (S (k - Lp.[i])) by lia. rewrite seq_S, map_app, run_app. fold y.
      replace (Lp.[i] + (k - Lp.[i])) with k by lia. cbn [map]. rewrite run_cons. cbn [run_iters fold_left]. unfold solve_iter.
      destruct (Nat.eqb_spec (S k) Lp.[S i]); [lia|]. reflexivity.
    - intros y ->. set (y := run_iters _ _ _). assert (length y = length x) by apply run_length.
      destruct (Nat.eqb_spec Lp.[S i] 0); [lia|]. wp1. wp1; [lia|]. wp1. wp1; [lia|]. wp1; [lia|].
      unfold row_iters. replace (Lp.[S i] - Lp.[i]) with (S (Lp.[S i] - 1 - Lp.[i])) by lia. rewrite seq_S, map_app, run_app. fold y.
      replace (Lp.[i] + (Lp.[S i] - 1 - Lp.[i])) with (Lp.[S i] - 1) by lia. cbn [map]. rewrite run_cons. cbn [run_iters fold_left]. unfold solve_iter.
      destruct (Nat.eqb_spec (S (Lp.[S i] - 1)) Lp.[S i]); [|lia]. reflexivity. }
  apply wp_ok in G. destruct G as (a & -> & ->). reflexivity.
Qed.

Lemma lbc_seq_run no lp pp np x : n <= length x -> sched_wf n no lp pp np -> (forall k, k < n -> np.[k] < n) ->
  sptrsv_csr_lbc_seq fms quo Lp Li Lx no lp pp np x = Ok (run_iters sit (rows_iters Lp Li (slice np 0 n)) x).
Proof.
  intros Hx (S1 & S2 & S3 & S4 & S5 & S6 & S7 & S8) HN.
  assert (G : wp (sptrsv_csr_lbc_seq fms quo Lp Li Lx no lp pp np x) (fun r => r = run_iters sit (rows_iters Lp Li (slice np 0 n)) x)).
  { unfold sptrsv_csr_lbc_seq. set (J := fun k y => y = run_iters sit (rows_iters Lp Li (slice np 0 k)) x).
    apply wp_for with (I := fun l => J pp.[lp.[l]]); [lia| | |].
    - rewrite S2, S5. unfold J. now rewrite slice_nil by lia.
    - intros l y Hl HJ. pose proof (S3 l ltac:(lia)). pose proof (mono_le (aget lp) no S3 (S l) no ltac:(lia) ltac:(lia)).
      wp1. wp1; [lia|]. wp1. wp1; [lia|]. apply wp_for with (I := fun p => J pp.[p]); auto.
      intros p y' Hp HJ'. pose proof (S6 p ltac:(lia)).
      pose proof (mono_le (aget pp) lp.[no] S6 (S p) lp.[no] ltac:(lia) ltac:(lia)) as HM. rewrite S7 in HM.
      wp1. wp1; [lia|]. wp1. wp1; [lia|]. apply wp_for with (I := J); auto.
      intros k z Hk HK. wp1. wp1; [lia|]. rewrite solve_row_run; [| |].
      + wp1. unfold J in *. subst z. rewrite (slice_app np 0 k (S k)) by lia. rewrite (slice_cons np k (S k)) by lia.
        rewrite (slice_nil np (S k) (S k)) by lia. rewrite rows_iters_app, rows_iters_one, run_app. reflexivity.
      + apply HN. lia.
      + rewrite HK, run_length. auto.
    - intros y ->. now rewrite S7. }
  apply wp_ok in G. destruct G as (a & -> & ->). reflexivity.
Qed.

End Solve.
