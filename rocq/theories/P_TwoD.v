(** C106, C107: the two-dimensional reordering of the iterations of a schedule. *)
From Verif Require Import Base Lib Lib2 Spec Check CheckS SpecSolve SpecTwoD M_TwoD M_SpTRSV L_SpTRSV P_SpTRSV L_TwoD L_TwoD2.
From Coq Require Import ZifyBool ZifyNat Permutation Sorted.

(** what the function computes, in terms of the runs of each part *)
Lemma two_d_wp n Lp Li no lp pp np tuple0 (Q : list nat * list iter -> Prop) :
  wf_csc n Lp Li -> sched_wf n no lp pp np -> (forall k, k < n -> np.[k] < n) ->
  (forall parts : list (list iter), length parts = lp.[no] ->
     (forall p, p < lp.[no] -> exists rs, runs_of (part_rows pp np p) rs /\
        parts.[p] = concat (map stable_sort (map (rows_iters Lp Li) rs))) ->
     Q (tuple0 ++ offs parts, concat parts)) ->
  wp (twoDReordering Lp Li lp pp np no tuple0) Q.
Proof.
  intros W SW HN HQ. unfold twoDReordering. wp1. apply (two_unpack_wp n); auto. intros dps (D1 & D2).
  wp1. apply sort_segments_wp. wp1.
  set (parts := map (fun d => concat (map stable_sort d)) dps).
  assert (EC : concat (map stable_sort (concat dps)) = concat parts).
  { unfold parts. clear. induction dps as [|d t IH]; auto. cbn [concat map]. rewrite map_app, concat_app. f_equal. exact IH. }
  assert (EO : offs (map (concat (A:=iter)) dps) = offs parts).
  { unfold offs, parts. rewrite !map_length. apply map_ext. intros i. rewrite !firstn_map.
    generalize (firstn i dps) as l. clear. induction l as [|d t IH]; auto. cbn [concat map].
    rewrite !app_length. now rewrite concat_map_sort_length, IH. }
  rewrite EC, EO. apply HQ.
  - unfold parts. now rewrite map_length.
  - intros p Hp. destruct (D2 p Hp) as (rs & HR & E). exists rs. split; auto. unfold parts.
    rewrite (aget_map (fun d => concat (map stable_sort d))) by lia. rewrite E. apply concat_map_sort_ne.
Qed.

(** C106: the tuples of part [p] are cut into tiles, one for each maximal run of
    consecutive rows of the part, in the order of the runs; a tile holds exactly the entries
    of its rows, by column, then by row.  The tuple pointer, appended to what the vector
    held before, delimits the parts. *)
Theorem C106_tiles :
  forall n Lp Li no lp pp np tuple0,
  wf_csc n Lp Li -> sched_wf n no lp pp np -> (forall k, k < n -> np.[k] < n) ->
  exists tup its, twoDReordering Lp Li lp pp np no tuple0 = Ok (tuple0 ++ tup, its) /\
    length tup = S lp.[no] /\ tup.[0] = 0 /\ (forall p, p < lp.[no] -> tup.[p] <= tup.[S p]) /\
    tup.[lp.[no]] = length its /\
    forall p, p < lp.[no] -> exists runs tiles, runs_of (part_rows pp np p) runs /\
      slice its tup.[p] tup.[S p] = concat tiles /\
      Forall2 (fun r t => Permutation t (rows_iters Lp Li r) /\ column_major t) runs tiles.
Proof.
  intros n Lp Li no lp pp np tuple0 W SW HN.
  assert (G : wp (twoDReordering Lp Li lp pp np no tuple0) (fun r => exists tup its, r = (tuple0 ++ tup, its) /\
    length tup = S lp.[no] /\ tup.[0] = 0 /\ (forall p, p < lp.[no] -> tup.[p] <= tup.[S p]) /\
    tup.[lp.[no]] = length its /\
    forall p, p < lp.[no] -> exists runs tiles, runs_of (part_rows pp np p) runs /\
      slice its tup.[p] tup.[S p] = concat tiles /\
      Forall2 (fun r t => Permutation t (rows_iters Lp Li r) /\ column_major t) runs tiles)).
  { apply (two_d_wp n); auto. intros parts HL HP. exists (offs parts), (concat parts). splits; auto.
    - rewrite offs_length. lia.
    - intros p Hp. rewrite offs_S by lia. lia.
    - rewrite offs_at by lia. now rewrite <- HL, firstn_all.
    - intros p Hp. destruct (HP p Hp) as (rs & HR & E). exists rs, (map stable_sort (map (rows_iters Lp Li) rs)).
      splits; auto. { rewrite slice_offs by lia. auto. }
      pose proof (runs_are_runs _ _ HR) as HA. clear -HA. induction rs as [|r t IH]; cbn [map]; constructor.
      + split; [symmetry; apply stable_sort_perm|]. destruct (HA r (or_introl eq_refl)) as (s & m & ->).
        intros a b Hab Hb. apply sorted_index; auto. apply stable_sort_sorted, run_sorted.
      + apply IH. intros q Hq. apply HA. now right. }
  apply wp_ok in G. destruct G as (a & E & tup & its & -> & G). exists tup, its. split; auto.
Qed.
Print Assumptions C106_tiles.

Lemma runs_exist rows : exists rs, runs_of rows rs.
Proof.
  induction rows as [|x rows IH] using rev_ind; [exists []; constructor|]. destruct IH as (rs & HR).
  destruct rows as [|z zs] using rev_ind; [exists [[x]]; constructor|]. clear IHzs.
  destruct (Nat.eq_dec x (S z)) as [->|Hne]; [|exists (rs ++ [[x]]); now constructor].
  destruct rs as [|r rs] using rev_ind.
  - apply runs_concat in HR. symmetry in HR. now apply app_eq_nil in HR.
  - exists (rs ++ [r ++ [S z]]). now constructor.
Qed.

Lemma concat_parts pp np m n : (forall p, p < m -> pp.[p] <= pp.[S p]) -> pp.[0] = 0 -> pp.[m] <= n -> 
  concat (map (part_rows pp np) (seq 0 m)) = slice np 0 pp.[m].
Proof.
  intros HM H0 Hn. assert (G : forall q, q <= m -> concat (map (part_rows pp np) (seq 0 q)) = slice np 0 pp.[q]).
  { induction q as [|q IH]; intros Hq; [now rewrite H0, slice_nil by lia|]. rewrite seq_S, map_app, concat_app, IH by lia.
    cbn [map concat]. rewrite app_nil_r. unfold part_rows. cbn [Nat.add]. symmetry. apply slice_app; [lia|]. apply HM. lia. }
  now apply G.
Qed.

(** the iterations of all parts: those of all rows, reordered *)
Lemma two_d_perm Lp Li no lp pp np (parts : list (list iter)) n : sched_wf n no lp pp np -> length parts = lp.[no] ->
  (forall p, p < lp.[no] -> exists rs, runs_of (part_rows pp np p) rs /\
        parts.[p] = concat (map stable_sort (map (rows_iters Lp Li) rs))) ->
  Permutation (concat parts) (rows_iters Lp Li (slice np 0 n)).
Proof.
  intros (S1 & S2 & S3 & S4 & S5 & S6 & S7 & S8) HL HP.
  rewrite <- S7. rewrite <- (concat_parts pp np lp.[no] n) by (auto; lia). 
  assert (G : forall m, m <= length parts ->
     Permutation (concat (firstn m parts)) (rows_iters Lp Li (concat (map (part_rows pp np) (seq 0 m))))).
  { induction m as [|m IH]; intros Hm; [reflexivity|].
    assert (E2 : firstn (S m) parts = firstn m parts ++ [parts.[m]]).
    { clear -Hm. revert m Hm. induction parts as [|h t IH]; intros m Hm; simpl in Hm; [lia|].
      destruct m as [|m]; [reflexivity|]. rewrite aget_cons_S. cbn [firstn app]. f_equal. apply IH. lia. }
    rewrite E2, concat_app, seq_S, map_app, concat_app, rows_iters_app. apply Permutation_app; [apply IH; lia|].
    cbn [map concat Nat.add]. rewrite !app_nil_r. destruct (HP m ltac:(lia)) as (rs & HR & ->).
    rewrite <- (runs_concat _ _ HR). clear. induction rs as [|r t IH]; auto. cbn [map concat]. rewrite rows_iters_app.
    apply Permutation_app; auto. symmetry. apply stable_sort_perm. }
  rewrite <- HL. rewrite <- (firstn_all parts) at 1. apply G. lia.
Qed.

(** every stored entry is executed exactly once, with its row and its column *)
Theorem C106_every_entry_once :
  forall n Lp Li no lp pp np tuple0,
  wf_csc n Lp Li -> sched_wf n no lp pp np -> sched_complete n np ->
  exists tup its, twoDReordering Lp Li lp pp np no tuple0 = Ok (tup, its) /\
    Permutation (map (fun '(_, k, _) => k) its) (seq 0 Lp.[n]) /\
    forall i k j, In (i, k, j) its -> i < n /\ Lp.[i] <= k < Lp.[S i] /\ j = Li.[k].
Proof.
  intros n Lp Li no lp pp np tuple0 W SW [SC1 SC2].
  assert (G : wp (twoDReordering Lp Li lp pp np no tuple0) (fun r => let '(tup, its) := r in 
    Permutation (map (fun '(_, k, _) => k) its) (seq 0 Lp.[n]) /\
    forall i k j, In (i, k, j) its -> i < n /\ Lp.[i] <= k < Lp.[S i] /\ j = Li.[k])).
  { apply (two_d_wp n); auto. intros parts HL HP. pose proof (two_d_perm Lp Li no lp pp np parts n SW HL HP) as PM.
    destruct SW as (S1 & S2 & S3 & S4 & S5 & S6 & S7 & S8). destruct W as (W1 & W2 & W3 & W4 & W5).
    assert (PN : Permutation (slice np 0 n) (seq 0 n)).
    { assert (HLn : length (slice np 0 n) = n) by (rewrite slice_length; lia).
      apply NoDup_Permutation_bis.
      - apply NoDup_of_aget. rewrite HLn. intros i j Hi Hj. rewrite !aget_slice by lia. simpl. auto.
      - rewrite HLn, seq_length. lia.
      - intros x Hx. apply In_slice in Hx; [|lia|lia]. destruct Hx as (k & Hk & <-). apply in_seq. specialize (SC1 k). lia. }
    split.
    - rewrite PM. unfold rows_iters. rewrite (Permutation_flat_map _ PN).
      assert (E : forall m, m <= n -> map (fun '(_, k, _) => k) (flat_map (row_iters Lp Li) (seq 0 m)) = seq 0 Lp.[m]).
      { induction m as [|m IH]; intros Hm; [now rewrite W2|]. rewrite seq_S, flat_map_app, map_app, IH by lia.
        cbn [flat_map Nat.add]. rewrite app_nil_r. unfold row_iters. rewrite map_map. cbv beta iota. rewrite map_id.
        specialize (W3 m Hm). replace Lp.[S m] with (Lp.[m] + (Lp.[S m] - Lp.[m])) at 2 by lia. now rewrite seq_app. }
      now rewrite E.
    - intros i k j Hin. apply (Permutation_in _ PM) in Hin. apply in_rows_iters in Hin.
      destruct Hin as (i' & k' & Hi & Hk & E). injection E as -> -> ->. splits; auto; try lia.
      apply (Permutation_in _ PN) in Hi. apply in_seq in Hi. lia. }
  apply wp_ok in G. destruct G as ((tup & its) & E & G). exists tup, its. split; auto.
Qed.
Print Assumptions C106_every_entry_once.

(** two parts; the rows 1, 2 and 4, 5 of the first are runs, the second holds row 3 and row 0 *)
Example C106_case : let Lp := [0;1;2;4;5;7;10] in let Li := [0;1;1;2;3;1;4;2;4;5] in
  wf_csc 6 Lp Li /\ sched_wf 6 1 [0;2] [0;4;6] [1;2;4;5;3;0] /\ sched_complete 6 [1;2;4;5;3;0] /\
  twoDReordering Lp Li [0;2] [0;4;6] [1;2;4;5;3;0] 1 [7]
   = Ok ([7] ++ [0;8;10], [(1,1,1);(2,2,1);(2,3,2);(4,5,1);(5,7,2);(4,6,4);(5,8,4);(5,9,5);(3,4,3);(0,0,0)]).
Proof.
  cbv zeta.
  assert (VS : valid_schedule 6 (fun _ _ => False) 1 [0;2] [0;4;6] [1;2;4;5;3;0]).
  { eapply valid_scheduleb_ok with (eb := fun _ _ => false); [intros ? ? []|vm_compute; reflexivity]. }
  split; [now apply wf_cscb_ok|]. split; [apply VS|]. split; [apply VS|]. vm_compute. reflexivity.
Qed.

(** * C107 *)

(** rows without entries right of the diagonal, sorted by column: executing the tuples of
    any part changes the vector exactly as executing its rows one after the other, whatever an
    iteration computes from x[i] and x[j] *)
Theorem C107_part_same_result :
  forall (V : Type) (DV : Dflt V) (f : nat -> nat -> nat -> V -> V -> V) n Lp Li no lp pp np,
  wf_csc n Lp Li -> sched_wf n no lp pp np -> (forall k, k < n -> np.[k] < n) ->
  (forall i k, i < n -> Lp.[i] <= k < Lp.[S i] -> Li.[k] <= i) -> sorted_cols n Lp Li ->
  exists tup its, twoDReordering Lp Li lp pp np no [] = Ok (tup, its) /\ forall p x, p < lp.[no] ->
      run_iters f (slice its tup.[p] tup.[S p]) x = run_iters f (rows_iters Lp Li (part_rows pp np p)) x.
Proof.
  intros V DV f n Lp Li no lp pp np W SW HN LO SO.
  assert (G : wp (twoDReordering Lp Li lp pp np no []) (fun r => let '(tup, its) := r in
    forall p x, p < lp.[no] ->
      run_iters f (slice its tup.[p] tup.[S p]) x = run_iters f (rows_iters Lp Li (part_rows pp np p)) x)).
  { apply (two_d_wp n); auto. intros parts HL HP p x Hp. cbn [app]. rewrite slice_offs by lia.
    destruct (HP p Hp) as (rs & HR & ->). rewrite <- (runs_concat _ _ HR). apply (run_tiles n); auto.
    - now apply (runs_are_runs _ _ HR).
    - intros r i Hr Hi. assert (Hi' : In i (concat rs)) by (apply in_concat; eauto). rewrite (runs_concat _ _ HR) in Hi'.
      destruct SW as (S1 & S2 & S3 & S4 & S5 & S6 & S7 & S8). pose proof (S6 p Hp).
      pose proof (mono_le (aget pp) lp.[no] S6 (S p) lp.[no] ltac:(lia) ltac:(lia)).
      apply In_slice in Hi'; [|lia|lia]. destruct Hi' as (k & Hk & <-). apply HN. lia. }
  apply wp_ok in G. destruct G as ((tup & its) & E & G). exists tup, its. split; auto.
Qed.
Print Assumptions C107_part_same_result.

(** executing all tuples of a valid schedule in order solves the system, bit for bit as the
    serial row-wise solve does *)
Theorem C107_solve :
  forall (V : Type) (DV : Dflt V) fms quo n Lp Li (Lx b : list V) no lp pp np,
  lower_rows n Lp Li Lx -> n <= length b -> (forall i, i < n -> Li.[Lp.[S i] - 1] = i) -> sorted_cols n Lp Li ->
  valid_schedule n (row_dep n Lp Li) no lp pp np ->
  exists tup its y, twoDReordering Lp Li lp pp np no [] = Ok (tup, its) /\ sptrsv_csr fms quo Lp Li Lx n b = Ok y /\ run_iters (solve_iter fms quo Lp Lx) its b = y.
Proof.
  intros V DV fms quo n Lp Li Lx b no lp pp np HL Hb HD SO VS. pose proof HL as (WR & LT & HX). pose proof VS as (SW & SC & _).
  destruct (C29_lbc_seq_serial V DV fms quo n Lp Li Lx b no lp pp np HL Hb VS) as (y & E1 & E2).
  rewrite (lbc_seq_run fms quo n Lp Li Lx WR HX no lp pp np b Hb SW (proj1 SC)) in E2. injection E2 as E2.
  assert (LO : forall i k, i < n -> Lp.[i] <= k < Lp.[S i] -> Li.[k] <= i).
  { intros i k Hi Hk. destruct (Nat.eq_dec k (Lp.[S i] - 1)) as [->|Hne]; [now rewrite HD|].
    apply Nat.lt_le_incl. apply LT. split; auto. exists k. split; [lia|auto]. }
  assert (G : wp (twoDReordering Lp Li lp pp np no []) (fun r => let '(tup, its) := r in
     run_iters (solve_iter fms quo Lp Lx) its b = y)).
  { apply (two_d_wp n); auto; try apply SC; [apply WR|]. intros parts HLn HP. rewrite <- E2. clear E1 E2 y.
    pose proof SW as (S1 & S2 & S3 & S4 & S5 & S6 & S7 & S8).
    replace (slice np 0 n) with (concat (map (part_rows pp np) (seq 0 lp.[no]))) by (rewrite (concat_parts pp np lp.[no] n) by (auto; lia); now rewrite S7).
    assert (G : forall m, m <= length parts -> run_iters (solve_iter fms quo Lp Lx) (concat (firstn m parts)) b
       = run_iters (solve_iter fms quo Lp Lx) (rows_iters Lp Li (concat (map (part_rows pp np) (seq 0 m)))) b).
    { induction m as [|m IH]; intros Hm; [reflexivity|].
      assert (E2 : firstn (S m) parts = firstn m parts ++ [parts.[m]]).
      { clear -Hm. revert m Hm. induction parts as [|h t IH]; intros m Hm; simpl in Hm; [lia|].
        destruct m as [|m]; [reflexivity|]. rewrite aget_cons_S. cbn [firstn app]. f_equal. apply IH. lia. }
      rewrite E2, concat_app, seq_S, map_app, concat_app, rows_iters_app, !run_app. rewrite IH by lia.
      cbn [map concat Nat.add]. rewrite !app_nil_r. destruct (HP m ltac:(lia)) as (rs & HR & ->).
      rewrite <- (runs_concat _ _ HR). apply (run_tiles n); auto.
      - now apply (runs_are_runs _ _ HR).
      - intros r i Hr Hi. assert (Hi' : In i (concat rs)) by (apply in_concat; eauto). rewrite (runs_concat _ _ HR) in Hi'.
        pose proof (S6 m ltac:(lia)). pose proof (mono_le (aget pp) lp.[no] S6 (S m) lp.[no] ltac:(lia) ltac:(lia)).
        apply In_slice in Hi'; [|lia|lia]. destruct Hi' as (k & Hk & <-). apply SC. lia. }
    rewrite <- (firstn_all parts), G by lia. now rewrite HLn. }
  apply wp_ok in G. destruct G as ((tup & its) & E & G). exists tup, its, y. splits; auto.
Qed.
Print Assumptions C107_solve.

(** the hypotheses of C107 hold for a matrix and a schedule of two levels with two parts *)
Example C107_case : let Lp := [0;1;2;4;5;7;10] in let Li := [0;1;1;2;3;1;4;2;4;5] in
  let Lx := repeat 1%Z 10 in let b := [5;4;3;9;8;7]%Z in
  lower_rows 6 Lp Li Lx /\ (forall i, i < 6 -> Li.[Lp.[S i] - 1] = i) /\ sorted_cols 6 Lp Li /\
  valid_schedule 6 (row_dep 6 Lp Li) 2 [0;2;3] [0;2;4;6] [1;2;0;3;4;5] /\
  (exists tup its, twoDReordering Lp Li [0;2;3] [0;2;4;6] [1;2;0;3;4;5] 2 [] = Ok (tup, its) /\
     run_iters (solve_iter (fun a l d => a - l * d)%Z Z.div Lp Lx) its b = [5;4;(-1);9;4;4]%Z).
Proof.
  cbv zeta. split; [|split; [|split; [|split]]].
  - split; [apply wf_rowsb_ok; vm_compute; reflexivity|].
    split; [apply rows_lowerb_ok; vm_compute; reflexivity|vm_compute; lia].
  - intros i Hi. do 6 (destruct i as [|i]; [vm_compute; reflexivity|]). lia.
  - now apply sorted_colsb_ok.
  - eapply valid_scheduleb_ok; [apply row_depb_ok|vm_compute; reflexivity].
  - eexists _, _. split; vm_compute; reflexivity.
Qed.

(** with an entry right of the diagonal the result changes: row 0 reads x[1] before row 1
    in the row-wise order and after it in the reordered one *)
Theorem C107_upper_entry_refuted :
  exists Lp Li (f : nat -> nat -> nat -> Z -> Z -> Z) x tup its,
    wf_csc 2 Lp Li /\ sorted_cols 2 Lp Li /\ sched_wf 2 1 [0;1] [0;2] [0;1] /\
    twoDReordering Lp Li [0;1] [0;2] [0;1] 1 [] = Ok (tup, its) /\
    run_iters f (slice its tup.[0] tup.[1]) x <> run_iters f (rows_iters Lp Li (part_rows [0;2] [0;1] 0)) x.
Proof.
  assert (VS : valid_schedule 2 (fun _ _ => False) 1 [0;1] [0;2] [0;1]).
  { eapply valid_scheduleb_ok with (eb := fun _ _ => false); [intros ? ? []|vm_compute; reflexivity]. }
  exists [0;2;4], [0;1;0;1], (fun _ _ _ a d => a + d)%Z, [1;2]%Z. eexists _, _. split; [|split; [|split; [|split; [vm_compute; reflexivity|]]]].
  - now apply wf_cscb_ok.
  - now apply sorted_colsb_ok.
  - apply VS.
  - vm_compute. discriminate.
Qed.
Print Assumptions C107_upper_entry_refuted.

(** with an unsorted row the order of its subtractions changes: a result that depends on
    their order (as with rounding) is not the same *)
Theorem C107_unsorted_row_refuted :
  exists Lp Li (f : nat -> nat -> nat -> Z -> Z -> Z) x tup its,
    wf_csc 3 Lp Li /\ (forall i k, i < 3 -> Lp.[i] <= k < Lp.[S i] -> Li.[k] <= i) /\ sched_wf 3 1 [0;1] [0;3] [0;1;2] /\
    twoDReordering Lp Li [0;1] [0;3] [0;1;2] 1 [] = Ok (tup, its) /\
    run_iters f (slice its tup.[0] tup.[1]) x <> run_iters f (rows_iters Lp Li (part_rows [0;3] [0;1;2] 0)) x.
Proof.
  assert (VS : valid_schedule 3 (fun _ _ => False) 1 [0;1] [0;3] [0;1;2]).
  { eapply valid_scheduleb_ok with (eb := fun _ _ => false); [intros ? ? []|vm_compute; reflexivity]. }
  exists [0;1;2;5], [0;1;1;0;2], (fun _ _ _ a d => 2 * a + d)%Z, [4;8;20]%Z. eexists _, _. split; [|split; [|split; [|split; [vm_compute; reflexivity|]]]].
  - now apply wf_cscb_ok.
  - intros i k Hi Hk. do 3 (destruct i as [|i]; [do 5 (destruct k as [|k]; [vm_compute in *; lia|]); vm_compute in Hk; lia|]). lia.
  - apply VS.
  - vm_compute. discriminate.
Qed.
Print Assumptions C107_unsorted_row_refuted.
