(** Proofs about twoDReordering: stable sorting, cutting into runs. *)
From Verif Require Import Base Lib Lib2 Spec SpecTwoD M_TwoD L_Util.
From Coq Require Import ZifyBool ZifyNat Permutation Sorted.

Notation iter := (nat * nat * nat)%type.

(** * Stable sorting *)

(** by row, then by position: the order in which the iterations are unpacked *)
Definition rowk (a b : iter) : Prop :=
  let '(i, k, _) := a in let '(i', k', _) := b in i < i' \/ (i = i' /\ k < k').

Lemma sinsert_perm x l : Permutation (x :: l) (sinsert x l).
Proof.
  induction l as [|y t IH]; simpl; auto. destruct (sortbysec y x); auto.
  rewrite perm_swap. now apply perm_skip.
Qed.

Lemma stable_sort_perm l : Permutation l (stable_sort l).
Proof. induction l as [|x t IH]; simpl; auto. rewrite <- sinsert_perm. now apply perm_skip. Qed.

Lemma stable_sort_length l : length (stable_sort l) = length l.
Proof. symmetry. apply Permutation_length, stable_sort_perm. Qed.

Lemma before2_trans a b c : before2 a b -> before2 b c -> before2 a c.
Proof. destruct a as [[? ?] ?], b as [[? ?] ?], c as [[? ?] ?]. simpl. lia. Qed.

Lemma before2_asym a b : before2 a b -> before2 b a -> False.
Proof. destruct a as [[? ?] ?], b as [[? ?] ?]. simpl. lia. Qed.

Lemma sinsert_sorted x l : StronglySorted before2 l -> Forall (rowk x) l -> StronglySorted before2 (sinsert x l).
Proof.
  induction l as [|y t IH]; intros HS HF; simpl.
  - repeat constructor.
  - inversion HS as [|? ? HS' Hy]; inversion HF as [|? ? Hx HF']; subst.
    destruct (sortbysec y x) eqn:E; unfold sortbysec in E; apply Nat.ltb_lt in E || apply Nat.ltb_ge in E.
    + constructor; [auto|]. apply Forall_forall. intros z Hz.
      apply (Permutation_in _ (Permutation_sym (sinsert_perm x t))) in Hz. destruct Hz as [<-|Hz].
      * destruct x as [[? ?] ?], y as [[? ?] ?]. simpl in *. lia.
      * rewrite Forall_forall in Hy. auto.
    + constructor; [auto|]. apply Forall_forall. intros z Hz. rewrite Forall_forall in Hy, HF.
      specialize (HF z Hz). destruct Hz as [<-|Hz].
      * destruct x as [[? ?] ?], y as [[? ?] ?]. simpl in *. lia.
      * specialize (Hy z Hz). destruct x as [[? ?] ?], y as [[? ?] ?], z as [[? ?] ?]. simpl in *. lia.
Qed.

Lemma stable_sort_sorted l : StronglySorted rowk l -> StronglySorted before2 (stable_sort l).
Proof.
  induction 1 as [|x t HS IH HF]; simpl; [constructor|]. apply sinsert_sorted; auto.
  apply Forall_forall. intros z Hz. rewrite Forall_forall in HF. apply HF.
  eapply Permutation_in; [symmetry; apply stable_sort_perm|auto].
Qed.

Lemma sorted_index {A} `{Dflt A} (R : A -> A -> Prop) l : StronglySorted R l ->
  forall a b, a < b -> b < length l -> R l.[a] l.[b].
Proof.
  induction 1 as [|x t HS IH HF]; intros a b Hab Hb; simpl in Hb; [lia|].
  destruct b as [|b]; [lia|]. rewrite aget_cons_S. destruct a as [|a].
  - rewrite aget_cons_0. rewrite Forall_forall in HF. apply HF. apply aget_In. lia.
  - rewrite aget_cons_S. apply IH; lia.
Qed.

Lemma sorted_perm_eq {A} (R : A -> A -> Prop) l1 l2 :
  (forall a b, R a b -> R b a -> False) -> StronglySorted R l1 -> StronglySorted R l2 -> Permutation l1 l2 -> l1 = l2.
Proof.
  intros HA H1. revert l2. induction H1 as [|a t1 S1 IH F1]; intros l2 H2 HP.
  - apply Permutation_nil in HP. auto.
  - inversion H2 as [|b t2 S2 F2]; subst; [symmetry in HP; apply Permutation_nil in HP; discriminate|].
    rewrite Forall_forall in F1, F2. assert (a = b) as ->.
    { assert (In a (b :: t2)) as [->|Ha] by (eapply Permutation_in; [exact HP|left; auto]); auto.
      assert (In b (a :: t1)) as [->|Hb] by (eapply Permutation_in; [symmetry; exact HP|left; auto]); auto.
      elim (HA a b); auto. }
    f_equal. apply IH; auto. eapply Permutation_cons_inv; eauto.
Qed.

Lemma sorted_filter {A} (R : A -> A -> Prop) p l : StronglySorted R l -> StronglySorted R (filter p l).
Proof.
  induction 1 as [|x t HS IH HF]; simpl; [constructor|]. destruct (p x); auto. constructor; auto.
  apply Forall_forall. intros z Hz. apply filter_In in Hz. rewrite Forall_forall in HF. now apply HF.
Qed.

Lemma perm_filter {A} (p : A -> bool) l l' : Permutation l l' -> Permutation (filter p l) (filter p l').
Proof.
  induction 1; simpl; auto.
  - destruct (p x); auto.
  - destruct (p x), (p y); auto. apply perm_swap.
  - etransitivity; eauto.
Qed.

Lemma sorted_app {A} (R : A -> A -> Prop) l1 l2 : StronglySorted R l1 -> StronglySorted R l2 ->
  (forall a b, In a l1 -> In b l2 -> R a b) -> StronglySorted R (l1 ++ l2).
Proof.
  intros H1 H2. induction H1 as [|x t HS IH HF]; intros HR; simpl; auto. constructor.
  - apply IH. intros. apply HR; auto. now right.
  - apply Forall_app. split; auto. apply Forall_forall. intros z Hz. apply HR; auto. now left.
Qed.

(** * Rows and runs *)

Lemma in_row_iters Lp Li i e : In e (row_iters Lp Li i) -> exists k, Lp.[i] <= k < Lp.[S i] /\ e = (i, k, Li.[k]).
Proof. intros He. apply in_map_iff in He. destruct He as (k & <- & Hk). apply in_seq in Hk. exists k. split; [lia|auto]. Qed.

Lemma in_rows_iters Lp Li rows e : In e (rows_iters Lp Li rows) -> exists i k, In i rows /\ Lp.[i] <= k < Lp.[S i] /\ e = (i, k, Li.[k]).
Proof.
  intros He. apply in_flat_map in He. destruct He as (i & Hi & He). apply in_row_iters in He.
  destruct He as (k & Hk & E). eauto.
Qed.

Lemma row_sorted Lp Li i : StronglySorted rowk (row_iters Lp Li i).
Proof.
  unfold row_iters. generalize (Lp.[S i] - Lp.[i]) as m. generalize Lp.[i] as s. intros s m. revert s.
  induction m as [|m IH]; intros s; cbn [seq map]; constructor; auto.
  apply Forall_forall. intros z Hz. apply in_map_iff in Hz. destruct Hz as (k & <- & Hk). apply in_seq in Hk. simpl. lia.
Qed.

Lemma rows_iters_app Lp Li a b : rows_iters Lp Li (a ++ b) = rows_iters Lp Li a ++ rows_iters Lp Li b.
Proof. apply flat_map_app. Qed.

Lemma rows_iters_one Lp Li i : rows_iters Lp Li [i] = row_iters Lp Li i.
Proof. unfold rows_iters. simpl. apply app_nil_r. Qed.

(** a run *)
Definition a_run (r : list nat) : Prop := exists s m, r = seq s m.

Lemma runs_concat rows rs : runs_of rows rs -> concat rs = rows.
Proof.
  induction 1 as [|x|rows y x rs H IH Hx|rows y rs r H IH]; auto.
  - rewrite concat_app, IH. reflexivity.
  - rewrite concat_app in *. cbn [concat] in *. rewrite app_nil_r in *. rewrite app_assoc. now rewrite IH.
Qed.

Lemma runs_nonempty rows rs : runs_of rows rs -> forall r, In r rs -> r <> [].
Proof.
  induction 1 as [|x|rows y x rs H IH Hx|rows y rs r H IH]; intros q Hq.
  - destruct Hq.
  - destruct Hq as [<-|[]]. discriminate.
  - apply in_app_or in Hq. destruct Hq as [Hq|[<-|[]]]; [auto|discriminate].
  - apply in_app_or in Hq. destruct Hq as [Hq|[<-|[]]]; [apply IH, in_or_app; auto|].
    destruct r; discriminate.
Qed.

Lemma runs_are_runs rows rs : runs_of rows rs -> forall r, In r rs -> a_run r.
Proof.
  induction 1 as [|x|rows y x rs H IH Hx|rows y rs r H IH]; intros q Hq.
  - destruct Hq.
  - destruct Hq as [<-|[]]. exists x, 1. auto.
  - apply in_app_or in Hq. destruct Hq as [Hq|[<-|[]]]; auto. exists x, 1. auto.
  - apply in_app_or in Hq. destruct Hq as [Hq|[<-|[]]]; [apply IH, in_or_app; auto|].
    assert (Hr : In r (rs ++ [r])) by (apply in_or_app; right; now left).
    destruct (IH r Hr) as (s & m & E). exists s, (S m). rewrite seq_S. rewrite E. do 2 f_equal.
    pose proof (runs_concat _ _ H) as HC. pose proof (runs_nonempty _ _ H r Hr) as HN.
    rewrite concat_app in HC. cbn [concat] in HC. rewrite app_nil_r in HC. rewrite E in HC, HN.
    destruct m as [|m]; [now elim HN|]. rewrite seq_S, app_assoc in HC. apply app_inj_tail in HC. lia.
Qed.

Lemma run_sorted Lp Li s m : StronglySorted rowk (rows_iters Lp Li (seq s m)).
Proof.
  revert s. induction m as [|m IH]; intros s; [constructor|]. cbn [seq]. change (s :: seq (S s) m) with ([s] ++ seq (S s) m).
  rewrite rows_iters_app, rows_iters_one. apply sorted_app; auto using row_sorted.
  intros a b Ha Hb. apply in_row_iters in Ha. destruct Ha as (k & Hk & ->). apply in_rows_iters in Hb.
  destruct Hb as (i & k' & Hi & _ & ->). apply in_seq in Hi. simpl. lia.
Qed.

(** * Offsets of a list of segments *)

Definition offs {A} (ls : list (list A)) : list nat :=
  map (fun i => length (concat (firstn i ls))) (seq 0 (S (length ls))).

Lemma offs_length {A} (ls : list (list A)) : length (offs ls) = S (length ls).
Proof. unfold offs. now rewrite map_length, seq_length. Qed.

Lemma offs_at {A} (ls : list (list A)) i : i <= length ls -> (offs ls).[i] = length (concat (firstn i ls)).
Proof. intros Hi. unfold offs. rewrite (aget_map_seq (fun i => length (concat (firstn i ls)))) by lia. auto. Qed.

Lemma offs_snoc {A} (ls : list (list A)) s : offs (ls ++ [s]) = offs ls ++ [length (concat ls ++ s)].
Proof.
  unfold offs. rewrite app_length. cbn [length]. rewrite Nat.add_1_r. rewrite (seq_S (S (length ls))), map_app.
  f_equal.
  - apply map_ext_in. intros i Hi. apply in_seq in Hi. rewrite firstn_app.
    replace (i - length ls) with 0 by lia. cbn [firstn]. now rewrite app_nil_r.
  - cbn [map]. rewrite (firstn_all2 (n := 0 + S (length ls)) (ls ++ [s])) by (rewrite app_length; simpl; lia).
    rewrite concat_app. cbn [concat]. now rewrite app_nil_r.
Qed.

Lemma offs_last {A} (ls : list (list A)) : (offs ls).[length (offs ls) - 1] = length (concat ls).
Proof. rewrite offs_length. cbn [Nat.sub]. rewrite Nat.sub_0_r, offs_at by lia. now rewrite firstn_all. Qed.

Lemma back_offs {A} (ls : list (list A)) : back (offs ls) = Ok (length (concat ls)).
Proof. rewrite back_ok by (rewrite offs_length; lia). now rewrite offs_last. Qed.

Lemma concat_split_at {A} (ls : list (list A)) i : i < length ls ->
  concat ls = concat (firstn i ls) ++ ls.[i] ++ concat (skipn (S i) ls).
Proof.
  intros Hi. rewrite <- (firstn_skipn i ls) at 1. rewrite concat_app. f_equal.
  revert i Hi. induction ls as [|s t IH]; intros i Hi; simpl in Hi; [lia|]. destruct i as [|i]; [reflexivity|].
  cbn [skipn]. rewrite aget_cons_S. apply IH. lia.
Qed.

Lemma slice_mid {A} (a b c : list A) : slice (a ++ b ++ c) (length a) (length a + length b) = b.
Proof.
  unfold slice. replace (length a + length b - length a) with (length b) by lia.
  rewrite skipn_app, skipn_all, Nat.sub_diag. cbn [skipn app].
  rewrite firstn_app, Nat.sub_diag, firstn_all, firstn_O, app_nil_r. reflexivity.
Qed.

Lemma offs_S {A} (ls : list (list A)) i : i < length ls -> (offs ls).[S i] = (offs ls).[i] + length ls.[i].
Proof.
  intros Hi. rewrite !offs_at by lia. rewrite <- app_length. f_equal.
  revert i Hi. induction ls as [|h t IH]; intros i Hi; simpl in Hi; [lia|]. destruct i as [|i].
  - simpl. now rewrite app_nil_r.
  - rewrite aget_cons_S. cbn [firstn concat]. rewrite <- app_assoc. f_equal. apply IH. lia.
Qed.

Lemma slice_offs {A} (ls : list (list A)) i : i < length ls -> slice (concat ls) (offs ls).[i] (offs ls).[S i] = ls.[i].
Proof.
  intros Hi. rewrite offs_S by auto. rewrite offs_at by lia. rewrite (concat_split_at ls i) at 1 by auto. apply slice_mid.
Qed.

(** * Sorting the segments *)

Lemma stable_sort_range_mid a b c :
  stable_sort_range (a ++ b ++ c) (length a) (length a + length b) = Ok (a ++ stable_sort b ++ c).
Proof.
  unfold stable_sort_range. rewrite !app_length.
  destruct (_ && _) eqn:E; [|lia]. rewrite slice_mid. do 2 f_equal.
  - rewrite firstn_app, Nat.sub_diag, firstn_all, firstn_O, app_nil_r. reflexivity.
  - f_equal. rewrite app_assoc, skipn_app, app_length, Nat.sub_diag.
    rewrite (skipn_all2 (a ++ b)) by (rewrite app_length; lia). reflexivity.
Qed.

Lemma concat_map_sort_length ls : length (concat (map stable_sort ls)) = length (concat ls).
Proof. induction ls as [|s t IH]; simpl; auto. rewrite !app_length, stable_sort_length. lia. Qed.

Lemma sort_segments_wp (ls : list (list iter)) (Q : list iter -> Prop) : Q (concat (map stable_sort ls)) ->
  wp (for_ 0 (length (offs ls) - 1) (fun g its =>
      a <- rd (offs ls) g ;; b <- rd (offs ls) (S g) ;; stable_sort_range its a b) (concat ls)) Q.
Proof.
  intros HQ. rewrite offs_length. replace (S (length ls) - 1) with (length ls) by lia.
  apply wp_for with (I := fun g its => its = concat (map stable_sort (firstn g ls)) ++ concat (skipn g ls)); [lia| | |].
  - reflexivity.
  - intros g its Hg ->. wp1. wp1; [rewrite offs_length; lia|]. wp1. wp1; [rewrite offs_length; lia|].
    rewrite offs_S by lia. rewrite offs_at by lia. rewrite <- concat_map_sort_length.
    assert (E : concat (skipn g ls) = ls.[g] ++ concat (skipn (S g) ls)).
    { pose proof (concat_split_at ls g ltac:(lia)) as E. rewrite <- (firstn_skipn g ls) in E at 1.
      rewrite concat_app in E. now apply app_inv_head in E. }
    rewrite E, stable_sort_range_mid. apply wp_ret. rewrite app_assoc. f_equal.
    assert (E2 : firstn (S g) ls = firstn g ls ++ [ls.[g]]).
    { clear -Hg. assert (Hg' : g < length ls) by lia. clear Hg. revert g Hg'. induction ls as [|h t IH]; intros g Hg; simpl in Hg; [lia|].
      destruct g as [|g]; [reflexivity|]. rewrite aget_cons_S. cbn [firstn app]. f_equal. apply IH. lia. }
    rewrite E2, map_app, concat_app. cbn [map concat]. now rewrite app_nil_r.
  - intros its ->. rewrite firstn_all, skipn_all. cbn [concat]. now rewrite app_nil_r.
Qed.

(** * Unpacking *)

Definition ne {A} (ls : list (list A)) : list (list A) := filter (fun s => negb (length s =? 0)) ls.

Lemma ne_app {A} (a b : list (list A)) : ne (a ++ b) = ne a ++ ne b.
Proof. apply filter_app. Qed.

Lemma concat_ne {A} (ls : list (list A)) : concat (ne ls) = concat ls.
Proof. induction ls as [|[|x s] t IH]; simpl; auto. now rewrite IH. Qed.

Lemma concat_map_sort_ne ls : concat (map stable_sort (ne ls)) = concat (map stable_sort ls).
Proof. induction ls as [|[|x s] t IH]; simpl; auto. now rewrite IH. Qed.

Section Unpack.
Variables (n : nat) (Lp Li : list nat).
Hypothesis W : wf_csc n Lp Li.
Variables (level_ptr part_ptr node_ptr : list nat).

Lemma two_row_wp i its cnt (Q : list iter * nat -> Prop) : i < n ->
  Q (its ++ row_iters Lp Li i, cnt + length (row_iters Lp Li i)) -> wp (two_row Lp Li i (its, cnt)) Q.
Proof.
  intros Hi HQ. pose proof W as (W1 & W2 & W3 & W4 & W5). unfold two_row.
  wp1. wp1; [lia|]. wp1. wp1; [lia|]. pose proof (W3 i Hi).
  apply wp_for with (I := fun k st => st = (its ++ map (fun k => (i, k, Li.[k])) (seq Lp.[i] (k - Lp.[i])), cnt + (k - Lp.[i]))); [lia| | |].
  - rewrite Nat.sub_diag. cbn [seq map]. rewrite app_nil_r. now rewrite Nat.add_0_r.
  - intros k st Hk ->. pose proof (wf_col_lt n Lp Li W i k Hi ltac:(lia)) as [Hk1 _].
    wp1. wp1; [auto|]. wp1. f_equal; [|lia]. replace (S k - Lp.[i]) with (S (k - Lp.[i])) by lia.
    rewrite seq_S, map_app, app_assoc. cbn [map]. now replace (Lp.[i] + (k - Lp.[i])) with k by lia.
  - intros st ->. unfold row_iters in HQ. rewrite map_length, seq_length in HQ. exact HQ.
Qed.

Notation RI := (rows_iters Lp Li).

(** the rows so far, the segments closed, the segment open *)
Definition part_state (rows : list nat) (dn : list (list iter)) (op : list iter) (prev : option nat) : Prop :=
  (rows = [] /\ dn = [] /\ op = [] /\ prev = None) \/
  (exists rows' y rs r, rows = rows' ++ [y] /\ prev = Some y /\ runs_of rows (rs ++ [r]) /\ dn = ne (map RI rs) /\ op = RI r).

Lemma two_part_wp p dn0 (Q : list nat * list iter * nat -> Prop) :
  S p < length part_ptr -> part_ptr.[p] <= part_ptr.[S p] -> part_ptr.[S p] <= length node_ptr ->
  (forall k, part_ptr.[p] <= k < part_ptr.[S p] -> node_ptr.[k] < n) ->
  (forall dn op prev, part_state (part_rows part_ptr node_ptr p) dn op prev ->
     Q (offs (dn0 ++ dn), concat (dn0 ++ dn) ++ op, length (concat (dn0 ++ dn) ++ op))) ->
  wp (two_part Lp Li part_ptr node_ptr p (offs dn0) (concat dn0) (length (concat dn0))) Q.
Proof.
  intros H1 H2 H3 H4 HQ. unfold two_part. wp1. wp1; [lia|]. wp1. wp1; [lia|]. wp1.
  apply wp_for with (I := fun k st => let '(grp, its, cnt, prev) := st in exists dn op,
     part_state (slice node_ptr part_ptr.[p] k) dn op prev /\ grp = offs (dn0 ++ dn) /\
     its = concat (dn0 ++ dn) ++ op /\ cnt = length its); [lia| | |].
  - exists [], []. rewrite slice_nil by lia. rewrite !app_nil_r. splits; auto. left. auto.
  - intros k [[[grp its] cnt] prev] Hk (dn & op & PS & -> & -> & ->).
    wp1. wp1; [lia|]. rewrite back_offs. cbn [bind]. cbv zeta.
    set (i := node_ptr.[k]). assert (Hi : i < n) by (apply H4; lia).
    assert (ES : slice node_ptr part_ptr.[p] (S k) = slice node_ptr part_ptr.[p] k ++ [i]).
    { rewrite (slice_app node_ptr _ k) by lia. f_equal. rewrite slice_cons by lia. now rewrite slice_nil by lia. }
    rewrite ES. wp1. apply two_row_wp; auto. wp1. destruct PS as [(-> & -> & -> & ->)|(rows' & y & rs & r & E & -> & HR & -> & ->)].
    + rewrite !app_nil_r. rewrite Nat.eqb_refl. cbn [negb andb]. exists [], (row_iters Lp Li i). splits.
      * right. exists [], i, [], [i]. splits; auto. { constructor. } { now rewrite rows_iters_one. }
      * now rewrite app_nil_r.
      * now rewrite !app_nil_r.
      * now rewrite app_length.
    + rewrite E in *. destruct (Nat.eqb_spec i (S y)) as [Ei|Ei]; cbn [negb andb].
      * exists (ne (map RI rs)), (RI (r ++ [i])). splits; auto.
        -- right. exists (rows' ++ [y]), i, rs, (r ++ [i]). splits; auto. rewrite Ei. now constructor.
        -- rewrite rows_iters_app, rows_iters_one. now rewrite app_assoc.
        -- now rewrite !app_length.
      * exists (ne (map RI (rs ++ [r]))), (RI [i]). splits; auto.
        -- right. exists (rows' ++ [y]), i, (rs ++ [r]), [i]. splits; auto. now constructor.
        -- rewrite map_app, ne_app. cbn [map ne filter]. rewrite app_length.
           destruct (length (RI r)) as [|lr] eqn:El; cbn [negb Nat.eqb].
           ++ rewrite Nat.add_0_r, Nat.eqb_refl. cbn [negb]. now rewrite app_nil_r.
           ++ destruct (Nat.eqb_spec (length (concat (dn0 ++ ne (map RI rs)))) (length (concat (dn0 ++ ne (map RI rs))) + S lr)); [lia|].
              cbn [negb]. rewrite app_assoc, offs_snoc. now rewrite app_length, El.
        -- rewrite !concat_app, !concat_ne, map_app, concat_app. cbn [map concat]. rewrite rows_iters_one, app_nil_r. now rewrite !app_assoc.
        -- now rewrite !app_length.
  - intros [[[grp its] cnt] prev] (dn & op & PS & -> & -> & ->). wp1. apply HQ with prev. exact PS.
Qed.

(** the segments of all parts so far *)
Definition parts_state (p : nat) (dps : list (list (list iter))) : Prop :=
  length dps = p /\ forall q, q < p -> exists rs, runs_of (part_rows part_ptr node_ptr q) rs /\ dps.[q] = ne (map RI rs).

Lemma two_unpack_wp no tuple0 (Q : list nat * list nat * list iter -> Prop) :
  sched_wf n no level_ptr part_ptr node_ptr -> (forall k, k < n -> node_ptr.[k] < n) ->
  (forall dps, parts_state level_ptr.[no] dps ->
     Q (offs (concat dps), tuple0 ++ offs (map (@concat iter) dps), concat (concat dps))) ->
  wp (two_unpack Lp Li level_ptr part_ptr node_ptr no tuple0) Q.
Proof.
  intros (S1 & S2 & S3 & S4 & S5 & S6 & S7 & S8) HN HQ. unfold two_unpack.
  set (I := fun p (st : list nat * list nat * list iter * nat) => exists dps, parts_state p dps /\
     st = (offs (concat dps), tuple0 ++ offs (map (@concat iter) dps), concat (concat dps), length (concat (concat dps)))).
  wp1. apply wp_for with (I := fun l => I level_ptr.[l]); [lia| | |].
  - rewrite S2. exists []. split; [split; [auto|intros; lia]|reflexivity].
  - intros l st Hl HI. wp1. wp1; [lia|]. wp1. wp1; [lia|].
    pose proof (S3 l ltac:(lia)). pose proof (mono_le (aget level_ptr) no S3 (S l) no ltac:(lia) ltac:(lia)).
    apply wp_for with (I := I); auto.
    intros p st' Hp (dps & (P1 & P2) & ->). assert (Hp' : p < level_ptr.[no]) by lia.
    pose proof (mono_le (aget part_ptr) level_ptr.[no] S6 (S p) level_ptr.[no] ltac:(lia) (le_n _)) as Hm. rewrite S7 in Hm.
    wp1. apply two_part_wp; try lia. { now apply S6. } { intros k Hk. apply HN. lia. }
    intros dn op prev PS. rewrite back_offs. cbn [bind]. wp1.
    assert (G : exists rs, runs_of (part_rows part_ptr node_ptr p) rs /\
      (if length (concat (concat dps ++ dn)) =? length (concat (concat dps ++ dn) ++ op)
       then dn else dn ++ [op]) = ne (map RI rs) /\ concat dn ++ op = concat (map RI rs)).
    { destruct PS as [(E & -> & -> & ->)|(rows' & y & rs & r & E & -> & HR & -> & ->)].
      - exists []. rewrite E. splits; [constructor| |reflexivity]. rewrite !app_nil_r, Nat.eqb_refl. reflexivity.
      - exists (rs ++ [r]). splits; auto.
        + rewrite map_app, ne_app. cbn [map ne filter]. rewrite (app_length (concat _) (RI r)).
          destruct (length (RI r)) as [|lr] eqn:El; cbn [negb Nat.eqb].
          * now rewrite Nat.add_0_r, Nat.eqb_refl, app_nil_r.
          * match goal with |- context [?a =? ?b] => destruct (Nat.eqb_spec a b); [lia|] end. reflexivity.
        + rewrite concat_ne, map_app, concat_app. cbn [map concat]. now rewrite app_nil_r. }
    destruct G as (rs & HR & E1 & E2). exists (dps ++ [ne (map RI rs)]). split; [split|].
    + rewrite app_length. simpl. lia.
    + intros q Hq. destruct (Nat.eq_dec q p) as [->|Hne].
      * exists rs. split; auto. rewrite <- P1, aget_app_last. reflexivity.
      * rewrite aget_app1 by lia. apply P2. lia.
    + assert (E3 : concat (concat dps ++ dn) ++ op = concat (concat (dps ++ [ne (map RI rs)]))).
      { rewrite !concat_app. cbn [concat]. rewrite app_nil_r, concat_ne, <- E2. now rewrite <- app_assoc. }
      rewrite E3. f_equal. f_equal. f_equal.
      * rewrite <- E3. rewrite (concat_app dps). cbn [concat]. rewrite app_nil_r. rewrite <- E1.
        destruct (_ =? _); auto. now rewrite app_assoc, offs_snoc.
      * rewrite map_app. cbn [map]. rewrite offs_snoc, <- app_assoc. do 3 f_equal. f_equal.
        rewrite !concat_app. cbn [concat]. rewrite !app_nil_r. f_equal. clear. induction dps as [|a t IH]; simpl; auto. now rewrite concat_app, IH.
  - intros st (dps & PS & ->). wp1. apply HQ. auto.
Qed.

End Unpack.
