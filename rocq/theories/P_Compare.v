(** Properties C120 (comparison functions), C121 (test_unique), C124 (time_median and the timer), C125 (strip_name). *)
From Coq Require Import ZifyBool ZifyNat Ascii.
From Verif Require Import Base Lib Lib2 M_Mat M_TestUtil.

(** a loop that stops at the first bad index returns whether there is none *)
Lemma forb_all (f : nat -> res bool) (g : nat -> bool) lo hi :
  lo <= hi -> (forall i, lo <= i < hi -> f i = Ok (g i)) ->
  forb_ lo hi (fun i (_ : bool) => b <- f i ;; Ok (if b : bool then (true, false) else (false, true))) true
    = Ok (forallb (fun i => negb (g i)) (seq lo (hi - lo))).
Proof.
  intros Hle. unfold forb_. remember (hi - lo) as k. assert (hi = lo + k) by lia. clear Heqk Hle. revert lo H.
  induction k as [|k IH]; intros lo E Hf; [reflexivity|]. cbn [forb_n seq forallb]. rewrite Hf by lia. cbn [bind].
  destruct (g lo); cbn [fst snd negb andb]; auto. apply IH; [lia|]. intros i Hi. apply Hf. lia.
Qed.

Lemma forb_ext {S} (f g : nat -> S -> res (bool * S)) lo hi s : (forall i s, lo <= i < hi -> f i s = g i s) -> forb_ lo hi f s = forb_ lo hi g s.
Proof.
  unfold forb_. remember (hi - lo) as k. intros H. assert (H' : forall i s, lo <= i < lo + k -> f i s = g i s) by (intros; apply H; lia).
  clear Heqk H. revert lo s H'. induction k as [|k IH]; intros lo s H; [reflexivity|]. cbn [forb_n]. rewrite H by lia.
  destruct (g lo s) as [[b t]|e]; cbn [bind fst snd]; auto. destruct b; auto. apply IH. intros. apply H. lia.
Qed.

Section Compare.
Context {V : Type} {DV : Dflt V}.
Variables (far : V -> V -> bool) (isnan : V -> bool).

Lemma is_equal_vec_eq b e (v1 v2 : list V) : b <= e -> e <= length v1 -> e <= length v2 ->
  is_equal_vec far isnan b e v1 v2 = Ok (forallb (fun i => negb (isnan v1.[i] || isnan v2.[i] || far v1.[i] v2.[i])) (seq b (e - b))).
Proof.
  intros H H1 H2. unfold is_equal_vec.
  rewrite <- (forb_all (fun i => Ok (isnan v1.[i] || isnan v2.[i] || far v1.[i] v2.[i]))); auto.
  apply forb_ext. intros i s Hi. rewrite (rd_ok v1 i) by lia. cbn [bind]. rewrite (rd_ok v2 i) by lia. cbn [bind].
  destruct (isnan v1.[i]); cbn [bind orb]; auto. destruct (isnan v2.[i]); reflexivity.
Qed.

Lemma is_equal_val_eq n (v : list V) x : n <= length v ->
  is_equal_val far n v x = Ok (forallb (fun i => negb (far v.[i] x)) (seq 0 n)).
Proof.
  intros H. unfold is_equal_val. replace (seq 0 n) with (seq 0 (n - 0)) by (f_equal; lia).
  rewrite <- (forb_all (fun i => Ok (far v.[i] x))); auto; [|lia].
  apply forb_ext. intros i s Hi. rewrite (rd_ok v i) by lia. reflexivity.
Qed.

Lemma same_ints_eq len (a b : list nat) : len <= length a -> len <= length b ->
  same_ints len a b = Ok (forallb (fun i => a.[i] =? b.[i]) (seq 0 len)).
Proof.
  intros H1 H2. unfold same_ints.
  replace (forallb (fun i => a.[i] =? b.[i]) (seq 0 len)) with (forallb (fun i => negb (negb (a.[i] =? b.[i]))) (seq 0 (len - 0))).
  2:{ rewrite Nat.sub_0_r. induction (seq 0 len); simpl; auto. now rewrite negb_involutive, IHl. }
  rewrite <- (forb_all (fun i => Ok (negb (a.[i] =? b.[i])))); auto; [|lia].
  apply forb_ext. intros i s Hi. rewrite (rd_ok a i), (rd_ok b i) by lia. cbn [bind]. destruct (a.[i] =? b.[i]); reflexivity.
Qed.

Lemma forallb_seq (p : nat -> bool) a k : forallb p (seq a k) = true <-> forall i, a <= i < a + k -> p i = true.
Proof. rewrite forallb_forall. split; intros H i Hi; apply H; [apply in_seq|apply in_seq in Hi]; auto. Qed.

(** C120.  Comparing vectors: true exactly if no entry of the range is a NaN and no two are further apart than eps. *)
Theorem C120_vectors : forall b e (v1 v2 : list V), e <= length v1 -> e <= length v2 ->
  exists r, is_equal_vec far isnan b e v1 v2 = Ok r /\
    (r = true <-> forall i, b <= i < e -> isnan v1.[i] = false /\ isnan v2.[i] = false /\ far v1.[i] v2.[i] = false).
Proof.
  intros b e v1 v2 H1 H2. destruct (Nat.le_gt_cases b e) as [H|H].
  - eexists. split; [now apply is_equal_vec_eq|]. rewrite forallb_seq. split.
    + intros G i Hi. specialize (G i ltac:(lia)). apply negb_true_iff in G. apply orb_false_iff in G. destruct G as (G & ->).
      apply orb_false_iff in G. tauto.
    + intros G i Hi. destruct (G i ltac:(lia)) as (-> & -> & ->). reflexivity.
  - exists true. split; [|split; auto; intros; lia]. unfold is_equal_vec, forb_. replace (e - b) with 0 by lia. reflexivity.
Qed.

(** Comparing with one value: there is no test for NaN. *)
Theorem C120_value : forall n (v : list V) x, n <= length v ->
  exists r, is_equal_val far n v x = Ok r /\ (r = true <-> forall i, i < n -> far v.[i] x = false).
Proof.
  intros n v x H. eexists. split; [now apply is_equal_val_eq|]. rewrite forallb_seq. split.
  - intros G i Hi. specialize (G i ltac:(lia)). now apply negb_true_iff in G.
  - intros G i Hi. rewrite G; auto. lia.
Qed.

(** Comparing matrices: the number of columns, nnz, the pointers, the indices and the values up to eps; neither the number
    of rows nor stype is looked at. *)
Theorem C120_matrices : forall (A B : csc V),
  cn A < length (cp A) -> cn B < length (cp B) -> cnnz A <= length (ci A) -> cnnz B <= length (ci B) -> cnnz A <= length (cx A) -> cnnz B <= length (cx B) ->
  exists r, is_equal_csc far A B = Ok r /\
    (r = true <-> cn A = cn B /\ cnnz A = cnnz B /\ (forall j, j <= cn A -> (cp A).[j] = (cp B).[j]) /\
       (forall k, k < cnnz A -> (ci A).[k] = (ci B).[k]) /\ (forall k, k < cnnz A -> far (cx A).[k] (cx B).[k] = false)).
Proof.
  intros A B H1 H2 H3 H4 H5 H6. unfold is_equal_csc.
  destruct (Nat.eqb_spec (cn A) (cn B)) as [E|E]; cbn [andb negb]; [|exists false; split; auto; split; [discriminate|tauto]].
  destruct (Nat.eqb_spec (cnnz A) (cnnz B)) as [F|F]; cbn [negb]; [|exists false; split; auto; split; [discriminate|tauto]].
  rewrite same_ints_eq by lia. cbn [bind].
  destruct (forallb (fun i => (cp A).[i] =? (cp B).[i]) (seq 0 (cn A + 1))) eqn:P; cbn [negb].
  2:{ exists false. split; auto. split; [discriminate|]. intros (_ & _ & G & _). exfalso.
      assert (X : forallb (fun i => (cp A).[i] =? (cp B).[i]) (seq 0 (cn A + 1)) = true).
      { apply forallb_seq. intros i Hi. apply Nat.eqb_eq. apply G. lia. } congruence. }
  rewrite same_ints_eq by lia. cbn [bind].
  destruct (forallb (fun i => (ci A).[i] =? (ci B).[i]) (seq 0 (cnnz A))) eqn:Q; cbn [negb].
  2:{ exists false. split; auto. split; [discriminate|]. intros (_ & _ & _ & G & _). exfalso.
      assert (X : forallb (fun i => (ci A).[i] =? (ci B).[i]) (seq 0 (cnnz A)) = true).
      { apply forallb_seq. intros i Hi. apply Nat.eqb_eq. apply G. lia. } congruence. }
  exists (forallb (fun i => negb (far (cx A).[i] (cx B).[i])) (seq 0 (cnnz A))). split.
  - replace (seq 0 (cnnz A)) with (seq 0 (cnnz A - 0)) by (f_equal; lia).
    rewrite <- (forb_all (fun i => Ok (far (cx A).[i] (cx B).[i]))); auto; [|lia].
    apply forb_ext. intros i s Hi. rewrite (rd_ok (cx A)), (rd_ok (cx B)) by lia. reflexivity.
  - rewrite forallb_seq in P, Q |- *. split.
    + intros G. splits; auto.
      * intros j Hj. apply Nat.eqb_eq. apply P. lia.
      * intros k Hk. apply Nat.eqb_eq. apply Q. lia.
      * intros k Hk. specialize (G k ltac:(lia)). now apply negb_true_iff in G.
    + intros (_ & _ & _ & _ & G) i Hi. rewrite G; auto. lia.
Qed.
End Compare.
Print Assumptions C120_vectors.
Print Assumptions C120_value.
Print Assumptions C120_matrices.

(** doubles: integers and a NaN; every comparison with a NaN is false *)
Definition far_nan (a b : option Z) : bool :=
  match a, b with Some a, Some b => (0 <? Z.abs (a - b))%Z | _, _ => false end.
Definition is_none (a : option Z) : bool := match a with None => true | _ => false end.

(** So a vector of NaNs is equal to 1, a matrix of NaNs to every matrix of the same pattern, and a 3-row matrix to a
    2-row matrix. *)
Theorem C120_nan_refuted :
  is_equal_val far_nan 2 [None; None] (Some 1%Z) = Ok true /\
  is_equal_vec far_nan is_none 0 2 [None; Some 1%Z] [None; Some 1%Z] = Ok false /\
  is_equal_csc far_nan (mkCSC 2 1 1 false 0%Z [0;1] [0] [None]) (mkCSC 2 1 1 false 0%Z [0;1] [0] [Some 7%Z]) = Ok true /\
  is_equal_csc far_nan (mkCSC 2 1 1 false 0%Z [0;1] [0] [Some 7%Z]) (mkCSC 3 1 1 false 0%Z [0;1] [0] [Some 7%Z]) = Ok true.
Proof. vm_compute. auto. Qed.
Print Assumptions C120_nan_refuted.

Example C120_nonvacuous :
  is_equal_vec far_nan is_none 1 3 [None; Some 1; Some 2]%Z [Some 4; Some 1; Some 2]%Z = Ok true /\
  is_equal_vec far_nan is_none 0 3 [Some 3; Some 1; Some 2]%Z [Some 4; Some 1; Some 2]%Z = Ok false.
Proof. vm_compute. auto. Qed.

(** C121.  test_unique. *)
Definition in_rangeZ (n : nat) (v : Z) : Prop := (0 <= v < Z.of_nat n)%Z.

Lemma test_unique_marks n (vec : list Z) : n <= length vec -> (forall i, i < n -> in_rangeZ n vec.[i]) ->
  wp (for_ 0 n (fun i tmp => v <- rd vec i ;;
    if (v <? Z.of_nat n)%Z && (0 <=? v)%Z then wr tmp (Z.to_nat v) true else Err Throw) (repeat false n))
   (fun tmp => length tmp = n /\ forall j, j < n -> (tmp.[j] = true <-> exists i, i < n /\ vec.[i] = Z.of_nat j)).
Proof.
  intros L R. apply (wp_for (fun k (tmp : list bool) => length tmp = n /\ forall j, j < n -> (tmp.[j] = true <-> exists i, i < k /\ vec.[i] = Z.of_nat j))); [lia| | |].
  - split; [now rewrite repeat_length|]. intros j Hj. rewrite aget_repeat by auto. split; [discriminate|intros (i & Hi & _); lia].
  - intros k tmp Hk (Lt & I). apply wp_bind. apply (wp_rd); [lia|]. pose proof (R k ltac:(lia)) as (Ra & Rb).
    replace ((vec.[k] <? Z.of_nat n)%Z && (0 <=? vec.[k])%Z) with true by lia. apply wp_wr; [lia|]. split; [now rewrite upd_length|].
    intros j Hj. destruct (Nat.eq_dec j (Z.to_nat vec.[k])) as [->|N].
    + rewrite aget_upd_eq by lia. split; auto. intros _. exists k. split; lia.
    + rewrite aget_upd_ne by auto. rewrite I by auto. split; intros (i & Hi & E).
      * exists i. split; auto.
      * assert (i <> k) by (intros ->; lia). exists i. split; auto. lia.
  - auto.
Qed.

(** Entries in range: true exactly if every number below [n] occurs, i.e. if the vector is a permutation. *)
Theorem C121_unique : forall n (vec : list Z), n <= length vec -> (forall i, i < n -> in_rangeZ n vec.[i]) ->
  exists r, test_unique n vec = Ok r /\ (r = true <-> is_perm n (map Z.to_nat (firstn n vec))).
Proof.
  intros n vec L R.
  assert (G : wp (test_unique n vec) (fun r => r = true <-> forall j, j < n -> exists i, i < n /\ vec.[i] = Z.of_nat j)).
  { unfold test_unique. apply wp_bind. eapply wp_mono; [now apply test_unique_marks|]. intros tmp (Lt & I). cbn beta.
    apply (wp_forb (fun k r => r = true /\ forall j, j < k -> exists i, i < n /\ vec.[i] = Z.of_nat j)); [lia| | |].
    - split; auto. intros; lia.
    - intros k r Hk (_ & H). apply wp_bind. apply wp_rd; [lia|]. specialize (I k ltac:(lia)). destruct tmp.[k].
      + apply wp_ret. cbn [fst snd]. split; auto. intros j Hj. destruct (Nat.eq_dec j k) as [->|]; [now apply I|apply H; lia].
      + apply wp_ret. cbn [fst snd]. split; [discriminate|]. intros G. apply I. apply G. lia.
    - intros r (-> & H). split; auto. }
  apply wp_ok in G. destruct G as (r & -> & E). exists r. split; auto. rewrite E. clear E r.
  assert (Lf : length (map Z.to_nat (firstn n vec)) = n) by (rewrite map_length, firstn_length; lia).
  assert (Af : forall i, i < n -> (map Z.to_nat (firstn n vec)).[i] = Z.to_nat vec.[i]).
  { intros i Hi. unfold aget. rewrite (nth_indep _ _ (Z.to_nat dflt)) by lia. rewrite map_nth. f_equal. rewrite <- (firstn_skipn n vec) at 2.
    rewrite app_nth1; auto. rewrite firstn_length. lia. }
  split.
  - intros H. assert (I : incl (seq 0 n) (map Z.to_nat (firstn n vec))).
    { intros j Hj. apply in_seq in Hj. destruct (H j ltac:(lia)) as (i & Hi & E). replace j with ((map Z.to_nat (firstn n vec)).[i]).
      - apply nth_In. lia.
      - rewrite Af by auto. lia. }
    assert (ND : NoDup (map Z.to_nat (firstn n vec))).
    { eapply NoDup_incl_NoDup; [apply (seq_NoDup n 0)| |exact I]. rewrite Lf, seq_length. lia. }
    split; auto. split; auto. intros x. split.
    + intros Hx. destruct (In_nth _ _ 0 Hx) as (i & Hi & <-). fold (aget (map Z.to_nat (firstn n vec)) i). change (nth i (map Z.to_nat (firstn n vec)) 0) with ((map Z.to_nat (firstn n vec)).[i]).
      rewrite Af by lia. destruct (R i); lia.
    + intros Hx. apply I. apply in_seq. lia.
  - intros (_ & _ & H) j Hj. apply H in Hj. destruct (In_nth _ _ 0 Hj) as (i & Hi & E).
    change (nth i (map Z.to_nat (firstn n vec)) 0) with ((map Z.to_nat (firstn n vec)).[i]) in E. rewrite Af in E by lia.
    exists i. split; [lia|]. destruct (R i); lia.
Qed.
Print Assumptions C121_unique.

Example C121_nonvacuous : test_unique 4 [2;0;3;1]%Z = Ok true /\ test_unique 4 [2;0;3;2]%Z = Ok false.
Proof. vm_compute. auto. Qed.

(** C124.  The median of the measurements. *)
Definition count_if {A} (p : A -> bool) (l : list A) : nat := length (filter p l).

Lemma count_if_app {A} (p : A -> bool) l l' : count_if p (l ++ l') = count_if p l + count_if p l'.
Proof. unfold count_if. now rewrite filter_app, app_length. Qed.
Lemma count_if_le {A} (p : A -> bool) l : count_if p l <= length l.
Proof. unfold count_if. induction l; simpl; [lia|]. destruct (p a); simpl; lia. Qed.
Lemma count_if_0 {A} (p : A -> bool) l : (forall x, In x l -> p x = false) -> count_if p l = 0.
Proof. unfold count_if. induction l; intros H; simpl; auto. rewrite H by (now left). apply IHl. intros; apply H. now right. Qed.
Lemma count_if_perm {A} (p : A -> bool) l l' : Permutation l l' -> count_if p l = count_if p l'.
Proof. unfold count_if. induction 1; simpl; auto; repeat destruct (p _); simpl; lia. Qed.

(** [sortt] sorts: its result is a permutation in which nothing is less than something before it *)
Definition sorts {A} (ltb : A -> A -> bool) (sortt : list A -> list A) (l : list A) : Prop :=
  Permutation (sortt l) l /\ forall pre x mid y post, sortt l = pre ++ x :: mid ++ y :: post -> ltb y x = false.

Theorem C124_median : forall A (ltb : A -> A -> bool) sortt none (l : list A),
  (forall x, ltb x x = false) -> sorts ltb sortt l -> 0 < length l ->
  exists r, time_median sortt none l = Ok r /\ In r l /\
    count_if (fun x => ltb x r) l <= length l / 2 /\ count_if (fun x => ltb r x) l <= length l - 1 - length l / 2.
Proof.
  intros A ltb sortt none l IR (HP & HS) HL. unfold time_median.
  replace (length l =? 0) with false by lia.
  assert (LS : length (sortt l) = length l) by (now apply Permutation_length).
  assert (HM : length l / 2 < length l) by (apply Nat.div_lt; lia).
  destruct (nth_error (sortt l) (length l / 2)) as [r|] eqn:E; [|apply nth_error_None in E; lia].
  exists r. split.
  { destruct (Nat.eqb_spec (length l) 1) as [E1|E1]; unfold rd.
    - rewrite E1 in E. change (1 / 2) with 0 in E. now rewrite E.
    - now rewrite E. }
  apply nth_error_split in E. destruct E as (pre & post & E & Lp).
  assert (LL : length pre + S (length post) = length l) by (rewrite <- LS, E, app_length; simpl; lia).
  split; [|split].
  - eapply Permutation_in; [exact HP|]. rewrite E. apply in_or_app. right. now left.
  - rewrite <- (count_if_perm _ _ _ HP), E, count_if_app. change (r :: post) with ([r] ++ post). rewrite count_if_app.
    rewrite (count_if_0 _ [r]), (count_if_0 _ post). { pose proof (count_if_le (fun x => ltb x r) pre). lia. }
    + intros y Hy. apply in_split in Hy. destruct Hy as (m & q & ->). eapply HS. exact E.
    + intros x [<-|[]]. apply IR.
  - rewrite <- (count_if_perm _ _ _ HP), E, count_if_app. change (r :: post) with ([r] ++ post). rewrite count_if_app.
    rewrite (count_if_0 _ pre), (count_if_0 _ [r]). { pose proof (count_if_le (fun x => ltb r x) post). lia. }
    + intros x [<-|[]]. apply IR.
    + intros y Hy. apply in_split in Hy. destruct Hy as (m & q & ->). apply (HS m y q r post). rewrite E, <- app_assoc. reflexivity.
Qed.
Print Assumptions C124_median.

Example C124_nonvacuous : sorts Nat.ltb isort [5;1;4;2] /\ time_median isort 9 [5;1;4;2] = Ok 4 /\ time_median isort 9 [] = Ok 9.
Proof.
  split; [|vm_compute; auto]. split; [symmetry; apply isort_perm|]. intros pre x mid y post E. change (isort [5;1;4;2]) with [1;2;4;5] in E.
  destruct pre as [|a [|b [|c [|d pre]]]]; simpl in E; injection E; intros;
   repeat match goal with H : _ = ?m ++ _ |- _ => destruct m; simpl in H; [injection H; clear H; intros|injection H; clear H; intros] | H : [] = _ ++ _ :: _ |- _ => destruct mid; discriminate end; subst; auto; try discriminate; try (destruct mid; discriminate); try (destruct pre; discriminate).
Qed.

(** A timer measures from its first start, whatever happened in between: starting it again does not restart it. *)
Theorem C124_timer : forall t0 ops now, exists t, timer_run ((Start, t0) :: ops ++ [(Measure, now)]) new_timer = Ok t /\ fst t = (now - t0)%Z.
Proof.
  intros t0 ops now. unfold timer_run.
  assert (G : forall ops t, (exists l, snd t = t0 :: l) -> exists t', foreach (ops ++ [(Measure, now)]) (fun o t => timer_do (fst o) (snd o) t) t = Ok t' /\ fst t' = (now - t0)%Z).
  { clear ops. induction ops as [|[[] w] ops IH]; intros (e & tl) (l & E); cbn [snd] in E; subst tl; cbn [app foreach fst snd timer_do length Nat.ltb Nat.leb rd nth_error bind].
    - eexists. split; reflexivity.
    - apply IH. cbn [snd]. now eexists.
    - apply IH. cbn [snd]. now eexists. }
  cbn [foreach fst snd timer_do bind app]. apply G. cbn. now eexists.
Qed.
Print Assumptions C124_timer.

Theorem C124_restart_refuted : timer_run [(Start, 10); (Measure, 12); (Start, 100); (Measure, 101)]%Z new_timer = Ok (91, [10; 12; 100; 101])%Z.
Proof. reflexivity. Qed.
Print Assumptions C124_restart_refuted.

(** C125.  strip_name. *)
Definition slash : ascii := "/"%char.
Definition dot : ascii := "."%char.

Lemma rfind_at_app (c : ascii) (a b : list ascii) k f : rfind_at c (a ++ b) k f = rfind_at c b (k + length a) (rfind_at c a k f).
Proof.
  revert k f. induction a as [|x a IH]; intros k f; simpl; [now rewrite Nat.add_0_r|]. rewrite IH. f_equal. lia.
Qed.
Lemma rfind_at_none (c : ascii) (a : list ascii) k f : ~ In c a -> rfind_at c a k f = f.
Proof.
  revert k f. induction a as [|x a IH]; intros k f H; simpl; auto. rewrite IH by (intros G; apply H; now right).
  destruct (Ascii.eqb_spec x c) as [->|]; auto. exfalso. apply H. now left.
Qed.
Lemma rfind_last (c : ascii) (a b : list ascii) : ~ In c b -> rfind c (a ++ c :: b) = Z.of_nat (length a).
Proof.
  intros H. unfold rfind. rewrite rfind_at_app. simpl. rewrite Ascii.eqb_refl. rewrite rfind_at_none by auto. lia.
Qed.
Lemma rfind_none (c : ascii) (a : list ascii) : ~ In c a -> rfind c a = npos.
Proof. apply rfind_at_none. Qed.
Lemma rfind_cases (c : ascii) (a : list ascii) : {~ In c a} + {exists u v, a = u ++ c :: v /\ ~ In c v}.
Proof.
  induction a as [|x a IH]; [left; auto|]. destruct IH as [H|H].
  - destruct (ascii_dec x c) as [->|N]; [right; exists [], a; auto|left; intros [G|G]; auto].
  - right. destruct H as (u & v & -> & H). exists (x :: u), v. auto.
Qed.

Lemma skipn_app_len {A} (a b : list A) : skipn (length a) (a ++ b) = b.
Proof. rewrite skipn_app, Nat.sub_diag, skipn_all. reflexivity. Qed.
Lemma firstn_app_len {A} (a b : list A) : firstn (length a) (a ++ b) = a.
Proof. now rewrite firstn_app, Nat.sub_diag, firstn_all, firstn_O, app_nil_r. Qed.

Definition short (s : list ascii) : Prop := (Z.of_nat (length s) < 2 ^ 63)%Z.

Lemma substr_all s pos len : short s -> (Z.of_nat (length s) <= len)%Z -> pos <= length s -> substr s (Z.of_nat pos) len = Ok (skipn pos s).
Proof.
  intros H H1 H2. unfold substr. replace (Z.of_nat (length s) <? Z.of_nat pos)%Z with false by lia. rewrite Nat2Z.id, skipn_length.
  replace (Z.of_nat (length s - pos) <=? len)%Z with true by lia. reflexivity.
Qed.
Lemma substr_some s pos len : pos + len <= length s -> substr s (Z.of_nat pos) (Z.of_nat len) = Ok (firstn len (skipn pos s)).
Proof.
  intros H. unfold substr. replace (Z.of_nat (length s) <? Z.of_nat pos)%Z with false by lia. rewrite !Nat2Z.id, skipn_length.
  destruct (Z.leb_spec (Z.of_nat (length s - pos)) (Z.of_nat len)); auto. rewrite firstn_all2; auto. rewrite skipn_length. lia.
Qed.

(** a directory, a name, an extension *)
Theorem C125_dir_ext : forall d b e, short (d ++ slash :: b ++ dot :: e) -> ~ In slash b -> ~ In slash e -> ~ In dot e ->
  strip_name (d ++ slash :: b ++ dot :: e) = Ok b.
Proof.
  intros d b e H Hb He Hd. unfold strip_name. fold slash dot.
  rewrite (rfind_last slash d). 2:{ intros G. apply in_app_or in G. destruct G as [G|[G|G]]; auto. discriminate. }
  replace (d ++ slash :: b ++ dot :: e) with ((d ++ slash :: b) ++ dot :: e) in * by (now rewrite <- app_assoc).
  rewrite (rfind_last dot (d ++ slash :: b) e) by auto. unfold short in H. rewrite !app_length in H. cbn [length] in H.
  assert (E1 : (Z.of_nat (length d) =? npos)%Z = false) by (unfold npos; lia). rewrite E1.
  assert (E2 : (Z.of_nat (length (d ++ slash :: b)) =? npos)%Z = false) by (rewrite app_length; cbn [length]; unfold npos; lia). rewrite E2.
  rewrite !Z.mod_small by (rewrite ?app_length; cbn [length]; lia).
  replace (Z.of_nat (length (d ++ slash :: b)) - Z.of_nat (length d) - 1)%Z with (Z.of_nat (length b)) by (rewrite app_length; cbn [length]; lia).
  replace (Z.of_nat (length d) + 1)%Z with (Z.of_nat (length (d ++ [slash]))) by (rewrite app_length; cbn [length]; lia).
  replace ((d ++ slash :: b) ++ dot :: e) with ((d ++ [slash]) ++ b ++ dot :: e) by (now rewrite <- !app_assoc).
  rewrite substr_some by (rewrite !app_length; cbn [length]; lia). now rewrite skipn_app_len, firstn_app_len.
Qed.

(** no dot after the last slash: dots in the directory do not matter *)
Theorem C125_dir : forall d b, short (d ++ slash :: b) -> ~ In slash b -> ~ In dot b -> strip_name (d ++ slash :: b) = Ok b.
Proof.
  intros d b H Hb Hd. unfold strip_name. fold slash dot. rewrite (rfind_last slash d b Hb).
  assert (H' := H). unfold short in H'. rewrite app_length in H'. cbn [length] in H'.
  assert (E1 : (Z.of_nat (length d) =? npos)%Z = false) by (unfold npos; lia). rewrite E1. rewrite (Z.mod_small (Z.of_nat (length d) + 1)) by lia.
  replace (Z.of_nat (length d) + 1)%Z with (Z.of_nat (length (d ++ [slash]))) by (rewrite app_length; cbn [length]; lia).
  assert (L : length (d ++ [slash]) <= length (d ++ slash :: b)) by (rewrite !app_length; cbn [length]; lia).
  assert (E2 : skipn (length (d ++ [slash])) (d ++ slash :: b) = b).
  { replace (d ++ slash :: b) with ((d ++ [slash]) ++ b) by (now rewrite <- app_assoc). apply skipn_app_len. }
  destruct (rfind_cases dot d) as [N|(u & v & E & N)].
  - rewrite (rfind_none dot). 2:{ intros G. apply in_app_or in G. destruct G as [G|[G|G]]; auto. discriminate. }
    rewrite Z.eqb_refl. rewrite substr_all; auto; [now f_equal|]. unfold npos. rewrite app_length. cbn [length]. lia.
  - assert (R : rfind dot (d ++ slash :: b) = Z.of_nat (length u)).
    { rewrite E. rewrite <- app_assoc. cbn [app]. apply rfind_last. intros G. apply in_app_or in G. destruct G as [G|[G|G]]; auto. discriminate. }
    rewrite R. assert (Lu : length u < length d) by (rewrite E, app_length; cbn [length]; lia).
    assert (E3 : (Z.of_nat (length u) =? npos)%Z = false) by (unfold npos; lia). rewrite E3.
    rewrite substr_all; auto; [now f_equal|]. rewrite <- (Z.mod_add _ 1) by lia. rewrite Z.mod_small; [|lia]. rewrite app_length. cbn [length]. lia.
Qed.

(** no directory *)
Theorem C125_ext : forall b e, short (b ++ dot :: e) -> ~ In slash b -> ~ In slash e -> ~ In dot e -> strip_name (b ++ dot :: e) = Ok b.
Proof.
  intros b e H Hb He Hd. unfold strip_name. fold slash dot. rewrite (rfind_none slash).
  2:{ intros G. apply in_app_or in G. destruct G as [G|[G|G]]; auto. discriminate. }
  rewrite (rfind_last dot b e Hd). rewrite Z.eqb_refl. unfold short in H. rewrite app_length in H. cbn [length] in H.
  assert (E1 : (Z.of_nat (length b) =? npos)%Z = false) by (unfold npos; lia). rewrite E1.
  rewrite <- (Z.mod_add _ 1) by lia. replace (Z.of_nat (length b) - npos - 1 + 1 * 2 ^ 64)%Z with (Z.of_nat (length b)) by (unfold npos; lia).
  rewrite Z.mod_small by lia. change 0%Z with (Z.of_nat 0). rewrite substr_some by (rewrite app_length; cbn [length]; lia).
  cbn [skipn]. now rewrite firstn_app_len.
Qed.

Theorem C125_plain : forall b, short b -> ~ In slash b -> ~ In dot b -> strip_name b = Ok b.
Proof.
  intros b H Hb Hd. unfold strip_name. fold slash dot. rewrite (rfind_none slash b Hb), (rfind_none dot b Hd), Z.eqb_refl.
  change 0%Z with (Z.of_nat 0). rewrite substr_all; auto; unfold short, npos in *; lia.
Qed.

(** every name is of one of these four forms *)
Theorem C125_all_forms : forall s,
  (exists d b e, s = d ++ slash :: b ++ dot :: e /\ ~ In slash b /\ ~ In slash e /\ ~ In dot e) \/
  (exists d b, s = d ++ slash :: b /\ ~ In slash b /\ ~ In dot b) \/
  (exists b e, s = b ++ dot :: e /\ ~ In slash b /\ ~ In slash e /\ ~ In dot e) \/
  (~ In slash s /\ ~ In dot s).
Proof.
  intros s. destruct (rfind_cases slash s) as [N|(d & b & -> & N)].
  - destruct (rfind_cases dot s) as [M|(b & e & -> & M)]; [auto|]. right. right. left. exists b, e. splits; auto; intros G; apply N; apply in_or_app; cbn; auto.
  - destruct (rfind_cases dot b) as [M|(b' & e & -> & M)].
    + right. left. exists d, b. auto.
    + left. exists d, b', e. splits; auto; intros G; apply N; apply in_or_app; cbn; auto.
Qed.
Print Assumptions C125_dir_ext.
Print Assumptions C125_dir.
Print Assumptions C125_ext.
Print Assumptions C125_plain.
Print Assumptions C125_all_forms.

Example C125_nonvacuous : strip_name ["."; "."; "/"; "d"; "."; "x"; "/"; "a"; "."; "b"; "."; "m"]%char = Ok ["a"; "."; "b"]%char /\
  short ["."; "."; "/"; "d"; "."; "x"; "/"; "a"; "."; "b"; "."; "m"]%char.
Proof. vm_compute. auto. Qed.
