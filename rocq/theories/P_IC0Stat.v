(** Property C143: what the operation counter of the incomplete Cholesky kernel reports. *)
From Coq Require Import ZifyBool ZifyNat Permutation.
From Verif Require Import Base Lib Lib2 Spec SpecIC Check M_IC0 L_IC0 L_IC1.

(** all subtractions of the factorisation: the entry changed and the two factors *)
Definition all_terms (n : nat) (Lp Li : list nat) (tl : list (nat * (nat * nat))) : Prop :=
  NoDup tl /\ forall k m l, In (k, (m, l)) tl <-> exists c, c < n /\ Lp.[c] <= k < Lp.[S c] /\ term_at n Lp Li Li.[k] c m l.

(** times the innermost loop is entered: for every entry [m] below the diagonal of column [i],
    every entry of column Li[m] and every entry of column [i] from [m] on *)
Definition scans (n : nat) (Lp Li : list nat) : nat :=
  sum_r 0 n (fun i => sum_r (S Lp.[i]) Lp.[S i] (fun m => (Lp.[S Li.[m]] - Lp.[Li.[m]]) * (Lp.[S i] - m))).

Lemma sum_r_S a b f : a <= b -> sum_r a (S b) f = sum_r a b f + f b.
Proof. intros H. rewrite (sum_r_split a b (S b)) by lia. rewrite (sum_r_first b) by lia. f_equal. unfold sum_r. rewrite Nat.sub_diag. simpl. lia. Qed.

Section Stat.
Variables (n : nat) (Lp Li : list nat).
Hypothesis CP : chol_pattern n Lp Li.

Lemma stat_wp (Q : nat * nat * nat -> Prop) :
  Q (Lp.[n] + n + 2 * length (flat_map (upds Lp Li) (seq 0 n)), Lp.[n] + scans n Lp Li + 3 * length (flat_map (upds Lp Li) (seq 0 n)), 0) ->
  wp (ic0_csc_stat n Lp Li) Q.
Proof.
  intros HQ. unfold ic0_csc_stat. apply wp_bind. pose proof CP as ((W1 & W2 & W3 & W4 & W5) & _).
  set (U := fun j => length (flat_map (upds Lp Li) (seq 0 j))).
  set (SC := fun j => sum_r 0 j (fun i => sum_r (S Lp.[i]) Lp.[S i] (fun m => (Lp.[S Li.[m]] - Lp.[Li.[m]]) * (Lp.[S i] - m)))).
  apply (wp_for (fun j '(fl, me) => fl = Lp.[j] + j + 2 * U j /\ me = Lp.[j] + SC j + 3 * U j)); [lia|rewrite W2; auto| |].
  2:{ intros [fl me] (-> & ->). exact HQ. }
  intros i [fl me] Hi (-> & ->). destruct (ic_bounds n Lp Li CP i ltac:(lia)) as (B1 & B2 & B3).
  apply wp_bind. apply wp_rd; [lia|]. apply wp_bind. apply wp_rd; [lia|].
  set (fl0 := Lp.[i] + i + 2 * U i + _). set (me0 := Lp.[i] + SC i + 3 * U i + _).
  set (UM := fun j => length (flat_map (upds_m Lp Li Lp.[S i]) (seq (S Lp.[i]) (j - S Lp.[i])))).
  set (g := fun m => (Lp.[S Li.[m]] - Lp.[Li.[m]]) * (Lp.[S i] - m)).
  apply (wp_for (fun j '(fl, me) => fl = fl0 + 2 * UM j /\ me = me0 + sum_r (S Lp.[i]) j g + 3 * UM j)); [lia| | |].
  { unfold UM, sum_r. rewrite Nat.sub_diag. simpl. lia. }
  2:{ intros [fl me] (-> & ->).
      assert (EU : U (S i) = U i + UM Lp.[S i]).
      { unfold U, UM. replace (S i) with (i + 1) at 1 by lia. rewrite seq_app, flat_map_app, app_length. f_equal. cbn [seq flat_map Nat.add]. rewrite app_nil_r. reflexivity. }
      assert (ES : SC (S i) = SC i + sum_r (S Lp.[i]) Lp.[S i] g) by (unfold SC; rewrite sum_r_S by lia; reflexivity).
      rewrite EU, ES. unfold fl0, me0. lia. }
  intros m [fl me] Hm (-> & ->). destruct (ic_index n Lp Li CP i m ltac:(lia)) as (M1 & M2 & M3); [lia|]. destruct (ic_bounds n Lp Li CP _ M1) as (C1 & C2 & C3).
  apply wp_bind. apply wp_rd; [lia|]. apply wp_bind. apply wp_rd; [lia|]. apply wp_bind. apply wp_rd; [lia|].
  set (fl1 := fl0 + 2 * UM m). set (me1 := me0 + _ + _).
  set (UK := fun j => length (flat_map (upds_mk Li Lp.[S i] m) (seq Lp.[Li.[m]] (j - Lp.[Li.[m]])))).
  apply (wp_for (fun j '(fl, me) => fl = fl1 + 2 * UK j /\ me = me1 + (j - Lp.[Li.[m]]) * (Lp.[S i] - m) + 3 * UK j)); [lia| | |].
  { unfold UK. rewrite Nat.sub_diag. simpl. lia. }
  2:{ intros [fl me] (-> & ->).
      assert (EU : UM (S m) = UM m + UK Lp.[S Li.[m]]).
      { unfold UM, UK. replace (S m - S Lp.[i]) with (m - S Lp.[i] + 1) by lia. rewrite seq_app, flat_map_app, app_length. f_equal. cbn [seq flat_map].
        replace (S Lp.[i] + (m - S Lp.[i])) with m by lia. now rewrite app_nil_r. }
      rewrite EU, sum_r_S by lia. unfold fl1, me1, g. lia. }
  intros k [fl me] Hk (-> & ->). destruct (ic_index n Lp Li CP Li.[m] k M1) as (K1 & K2 & K3); [lia|].
  set (fl2 := fl1 + 2 * UK k). set (me2 := me1 + _ + _).
  set (UL := fun j => length (filter (fun l => Li.[l] =? Li.[k]) (seq m (j - m)))).
  apply (wp_for (fun j '(fl, me) => fl = fl2 + 2 * UL j /\ me = me2 + (j - m) + 3 * UL j)); [lia| | |].
  { unfold UL. rewrite Nat.sub_diag. simpl. lia. }
  2:{ intros [fl me] (-> & ->).
      assert (EU : UK (S k) = UK k + UL Lp.[S i]).
      { unfold UK, UL. replace (S k - Lp.[Li.[m]]) with (k - Lp.[Li.[m]] + 1) by lia. rewrite seq_app, flat_map_app, app_length. f_equal. cbn [seq flat_map].
        replace (Lp.[Li.[m]] + (k - Lp.[Li.[m]])) with k by lia. rewrite app_nil_r. unfold upds_mk. apply map_length. }
      rewrite EU. unfold fl2, me2. replace (S k - Lp.[Li.[m]]) with (S (k - Lp.[Li.[m]])) by lia. simpl. lia. }
  intros l [fl me] Hl (-> & ->). destruct (ic_index n Lp Li CP i l ltac:(lia)) as (L1 & L2 & L3); [lia|].
  apply wp_bind. apply wp_rd; [lia|]. apply wp_bind. apply wp_rd; [lia|].
  assert (EU : UL (S l) = UL l + if Li.[l] =? Li.[k] then 1 else 0).
  { unfold UL. replace (S l - m) with (l - m + 1) by lia. rewrite seq_app, filter_app, app_length. f_equal.
    simpl. replace (m + (l - m)) with l by lia. now destruct (Li.[l] =? Li.[k]). }
  destruct (Li.[l] =? Li.[k]); cbn [wp]; lia.
Qed.

Lemma upds_filter T : filter is_upd (flat_map (ops Lp Li) T) = flat_map (upds Lp Li) T.
Proof.
  induction T as [|i T IH]; auto. cbn [flat_map]. rewrite filter_app, IH. f_equal. unfold ops. cbn [filter is_upd]. rewrite filter_app.
  assert (E1 : filter is_upd (divs Lp i) = []).
  { destruct (filter is_upd (divs Lp i)) as [|z r] eqn:E; auto. exfalso. assert (In z (z :: r)) as H by now left. rewrite <- E in H.
    apply filter_In in H. destruct H as (H & Hu). apply divs_form in H. destruct H as (m & -> & _). discriminate. }
  rewrite E1. simpl. assert (G : forall l, (forall o, In o l -> is_upd o = true) -> filter is_upd l = l).
  { induction l as [|a l IHl]; intros H; simpl; auto. rewrite H by now left. f_equal. apply IHl. intros. apply H. now right. }
  apply G. intros o H. apply upds_form in H. destruct H as (? & ? & ? & ->). reflexivity.
Qed.

Lemma terms_count tl : all_terms n Lp Li tl -> length tl = length (flat_map (upds Lp Li) (seq 0 n)).
Proof.
  intros (ND & HT). rewrite <- upds_filter. destruct (serial_good (fun a _ _ : nat => a) (fun a _ => a) (fun a => a) n Lp Li CP) as (NDs & HK & _).
  rewrite <- (map_length (fun t => OUpd (fst t) (fst (snd t)) (snd (snd t))) tl). apply Permutation_length. apply NoDup_Permutation.
  - apply FinFun.Injective_map_NoDup; auto. intros [k [m l]] [k' [m' l']] E. simpl in E. congruence.
  - now apply NoDup_filter.
  - intros o. rewrite filter_In. change (flat_map (ops Lp Li) (seq 0 n)) with (serial_ops n Lp Li). rewrite HK, in_map_iff. split.
    + intros ([k [m l]] & <- & H). apply HT in H. destruct H as (c & Hc & Hk & H). split; auto. now apply (term_ops (fun a _ _ : nat => a) (fun a _ => a) (fun a => a) n Lp Li CP c k m l Hc Hk).
    + intros (H & Hu). destruct o as [d|m d|k m l]; try discriminate. exists (k, (m, l)). split; auto. apply HT.
      pose proof H as (u & Hu' & H'). rewrite In_ops in H'. destruct H' as (H1 & H2 & H3 & H4). destruct (ic_index n Lp Li CP u m Hu') as (B & _); [lia|].
      exists Li.[m]. splits; auto; try lia. now apply (term_ops (fun a _ _ : nat => a) (fun a _ => a) (fun a => a) n Lp Li CP Li.[m] k m l B H3).
Qed.

End Stat.

(** C143.  One square root and one division per pivot, one division per entry below the
    diagonal, a multiplication and a subtraction per term; accesses: the entries once, one
    per pass of the innermost loop (which has no break here) and three per term; the reuse
    count is always 0. *)
Theorem C143_ic0_stat :
  forall n Lp Li tl, chol_pattern n Lp Li -> all_terms n Lp Li tl ->
  ic0_csc_stat n Lp Li = Ok (2 * n + (Lp.[n] - n) + 2 * length tl, Lp.[n] + scans n Lp Li + 3 * length tl, 0) /\ n <= Lp.[n].
Proof.
  intros n Lp Li tl CP HT. rewrite (terms_count n Lp Li CP tl HT).
  assert (Hn : n <= Lp.[n]).
  { assert (G : forall j, j <= n -> j <= Lp.[j]).
    { induction j as [|j IH]; intros Hj; [lia|]. destruct (ic_bounds n Lp Li CP j ltac:(lia)). specialize (IH ltac:(lia)). lia. }
    auto. }
  split; auto. set (r := Ok _). assert (G : wp (ic0_csc_stat n Lp Li) (fun s => Ok s = r)).
  { apply stat_wp; auto. unfold r. do 3 f_equal. lia. }
  apply wp_ok in G. destruct G as (s & -> & E). exact E.
Qed.
Print Assumptions C143_ic0_stat.

(** such a list exists for every matrix *)
Theorem C143_terms_exist : forall n Lp Li, chol_pattern n Lp Li -> exists tl, all_terms n Lp Li tl.
Proof.
  intros n Lp Li CP. destruct (serial_good (fun a _ _ : nat => a) (fun a _ => a) (fun a => a) n Lp Li CP) as (NDs & HK & _).
  exists (map (fun o => (tgt o, (src1 o, src2 o))) (filter is_upd (serial_ops n Lp Li))).
  assert (HU : forall o, In o (filter is_upd (serial_ops n Lp Li)) -> o = OUpd (tgt o) (src1 o) (src2 o)).
  { intros o H. apply filter_In in H. destruct H as (_ & H). destruct o; try discriminate. reflexivity. }
  split.
  - apply (NoDup_map_inv (fun t => OUpd (fst t) (fst (snd t)) (snd (snd t)))). rewrite map_map. cbn [fst snd].
    rewrite (map_ext_in _ (fun o => o)), map_id; [now apply NoDup_filter|]. intros o Ho. symmetry. auto.
  - intros k m l. rewrite in_map_iff. split.
    + intros (o & E & Ho). pose proof (HU o Ho) as E'. injection E as E1 E2 E3. rewrite E1, E2, E3 in E'. apply filter_In in Ho. destruct Ho as (Ho & _).
      apply HK in Ho. rewrite E' in Ho. pose proof Ho as (u & Hu' & H'). rewrite In_ops in H'. destruct H' as (H1 & H2 & H3 & H4).
      destruct (ic_index n Lp Li CP u m Hu') as (B & _); [lia|]. exists Li.[m]. splits; auto; try lia. now apply (term_ops (fun a _ _ : nat => a) (fun a _ => a) (fun a => a) n Lp Li CP Li.[m] k m l B H3).
    + intros (c & Hc & Hk & H). exists (OUpd k m l). split; auto. apply filter_In. split; auto. apply HK. now apply (term_ops (fun a _ _ : nat => a) (fun a _ => a) (fun a => a) n Lp Li CP c k m l Hc Hk).
Qed.
Print Assumptions C143_terms_exist.

Example C143_nonvacuous : chol_pattern 3 [0;3;5;6] [0;1;2;1;2;2] /\ ic0_csc_stat 3 [0;3;5;6] [0;1;2;1;2;2] = Ok (17, 24, 0).
Proof.
  split; [|reflexivity]. split; [apply wf_cscb_ok; vm_compute; reflexivity|]. split; [apply lower_trib_ok; vm_compute; reflexivity|].
  split; [apply sorted_colsb_ok; vm_compute; reflexivity|apply diag_firstb_ok; vm_compute; reflexivity].
Qed.
