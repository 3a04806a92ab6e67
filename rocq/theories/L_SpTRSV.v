(** Proofs about the triangular solves. *)
From Coq Require Import ZifyBool ZifyNat.
From Verif Require Import Base Lib Lib2 Spec SpecSolve M_SpTRSV.

(** ** Positions in a program *)
Definition pat (P : prog) (l t q v : nat) : Prop :=
  l < length P /\ t < length P.[l] /\ q < length P.[l].[t] /\ P.[l].[t].[q] = v.

Definition prog_ok (n : nat) (E : nat -> nat -> Prop) (P : prog) : Prop :=
  (forall l t q v, pat P l t q v -> v < n) /\
  (forall l t q l' t' q' v, pat P l t q v -> pat P l' t' q' v -> l = l' /\ t = t' /\ q = q') /\
  (forall v, v < n -> exists l t q, pat P l t q v) /\
  (forall u v l t q l' t' q', E u v -> pat P l t q u -> pat P l' t' q' v ->
     l < l' \/ (l = l' /\ t = t' /\ q < q')).

#[global] Instance Dflt_rpc {V} : Dflt (rpc V) := RStart.

Section Solve.
Context {V : Type} {DV : Dflt V}.
Variables (fms : V -> V -> V -> V) (quo : V -> V -> V).
Variables (n : nat) (Lp Li : list nat) (Lx : list V).
Hypothesis WR : wf_rows n Lp Li.
Hypothesis HLx : Lp.[n] <= length Lx.

Lemma row_bounds i : i < n -> Lp.[i] < Lp.[S i] /\ Lp.[S i] <= Lp.[n] /\ S i < length Lp.
Proof.
  destruct WR as [(W1 & W2 & W3 & W4 & W5) WN]. intros Hi. splits; auto; [|lia].
  apply (mono_le (aget Lp) n); auto; lia.
Qed.

Lemma row_index i j : i < n -> j < Lp.[S i] -> Li.[j] < n /\ j < length Li /\ j < length Lx.
Proof.
  intros Hi Hj. destruct (row_bounds i Hi) as (_ & H & _). destruct WR as [(W1 & W2 & W3 & W4 & W5) _].
  splits; [apply W5; lia|lia|lia].
Qed.

(** the value of row [i] after the entries before [j] *)
Definition part (b y : list V) (i j : nat) : V :=
  fold_left (fun a j => fms a Lx.[j] y.[Li.[j]]) (seq Lp.[i] (j - Lp.[i])) b.[i].

Lemma part_S b y i j : Lp.[i] <= j -> part b y i (S j) = fms (part b y i j) Lx.[j] y.[Li.[j]].
Proof.
  intros Hj. unfold part. replace (S j - Lp.[i]) with (S (j - Lp.[i])) by lia.
  rewrite seq_S, fold_left_app. simpl. now replace (Lp.[i] + (j - Lp.[i])) with j by lia.
Qed.

Lemma part_0 b y i : part b y i Lp.[i] = b.[i].
Proof. unfold part. now rewrite Nat.sub_diag. Qed.

Lemma part_ext b y y' i j : i < n -> j <= Lp.[S i] - 1 ->
  (forall u, row_dep n Lp Li u i -> y.[u] = y'.[u]) -> part b y i j = part b y' i j.
Proof.
  intros Hi Hj HE. unfold part.
  assert (G : forall l a, (forall k, In k l -> Lp.[i] <= k < Lp.[S i] - 1) ->
    fold_left (fun a j => fms a Lx.[j] y.[Li.[j]]) l a = fold_left (fun a j => fms a Lx.[j] y'.[Li.[j]]) l a).
  { induction l as [|k l IH]; intros a Hl; simpl; auto. rewrite (HE (Li.[k])).
    - apply IH. intros; apply Hl; now right.
    - split; auto. exists k. split; auto. apply Hl. now left. }
  apply G. intros k Hk. apply in_seq in Hk. lia.
Qed.

(** ** Single-threaded rows *)
Lemma solve_row_wp b y i x (Q : list V -> Prop) : i < n -> n <= length x ->
  x.[i] = b.[i] -> (forall u, row_dep n Lp Li u i -> u <> i /\ x.[u] = y.[u]) ->
  Q (upd x i (quo (part b y i (Lp.[S i] - 1)) Lx.[Lp.[S i] - 1])) ->
  wp (solve_row fms quo Lp Li Lx i x) Q.
Proof.
  intros Hi Hx Hb HD HQ. destruct (row_bounds i Hi) as (B1 & B2 & B3). unfold solve_row.
  wp1. apply wp_rd; [lia|]. wp1. apply wp_rd; [lia|]. apply wp_bind.
  apply wp_for with (I := fun j x' => x' = upd x i (part b y i j)).
  - lia.
  - rewrite part_0, <- Hb. symmetry. apply list_ext; rewrite ?upd_length; auto.
    intros k Hk. destruct (Nat.eq_dec i k) as [<-|Hn]; [now rewrite aget_upd_eq|now rewrite aget_upd_ne].
  - intros j x' Hj ->. destruct (row_index i j Hi ltac:(lia)) as (R1 & R2 & R3).
    destruct (HD Li.[j]) as [D1 D2]. { split; auto. exists j. split; auto; lia. }
    wp1. apply wp_rd; [lia|]. wp1. apply wp_rd; [lia|]. wp1. apply wp_rd; [rewrite upd_length; lia|].
    wp1. apply wp_rd; [rewrite upd_length; lia|]. apply wp_wr; [rewrite upd_length; lia|].
    rewrite aget_upd_eq by lia. rewrite aget_upd_ne by auto. rewrite D2, <- part_S by lia.
    apply list_ext; rewrite ?upd_length; auto. intros k Hk.
    destruct (Nat.eq_dec i k) as [<-|Hn]; [rewrite !aget_upd_eq; auto; rewrite upd_length; lia|now rewrite !aget_upd_ne].
  - intros x' ->. replace (Lp.[S i] =? 0) with false by lia.
    destruct (row_index i (Lp.[S i] - 1) Hi ltac:(lia)) as (R1 & R2 & R3).
    wp1. apply wp_rd; [lia|]. wp1. apply wp_rd; [rewrite upd_length; lia|].
    apply wp_wr; [rewrite upd_length; lia|]. rewrite aget_upd_eq by lia.
    replace (max Lp.[i] (Lp.[S i] - 1)) with (Lp.[S i] - 1) in * by lia.
    replace (upd (upd x i _) i _) with (upd x i (quo (part b y i (Lp.[S i] - 1)) Lx.[Lp.[S i] - 1])); auto.
    apply list_ext; rewrite ?upd_length; auto. intros k Hk.
    destruct (Nat.eq_dec i k) as [<-|Hn]; [rewrite !aget_upd_eq; auto; rewrite upd_length; lia|now rewrite !aget_upd_ne].
Qed.

(** ** The serial code computes the forward solution *)
Lemma sptrsv_csr_wp b (Q : list V -> Prop) : rows_lower n Lp Li -> n <= length b ->
  (forall y, forward_solution fms quo n Lp Li Lx b y -> Q y) ->
  wp (sptrsv_csr fms quo Lp Li Lx n b) Q.
Proof.
  intros LT Hb HQ. unfold sptrsv_csr.
  apply wp_for with (I := fun m x => length x = length b /\ (forall i, m <= i -> x.[i] = b.[i]) /\
     forall i, i < m -> x.[i] = quo (part b x i (Lp.[S i] - 1)) Lx.[Lp.[S i] - 1]).
  - lia.
  - splits; auto. intros i Hi. lia.
  - intros m x Hm (L & B & S0). apply (solve_row_wp b x m); auto; try lia.
    { intros u Hu. split; auto. specialize (LT _ _ Hu). lia. }
    rewrite upd_length. splits; auto.
    + intros i Hi. rewrite aget_upd_ne by lia. apply B. lia.
    + intros i Hi.
      assert (HE : part b (upd x m (quo (part b x m (Lp.[S m] - 1)) Lx.[Lp.[S m] - 1])) i (Lp.[S i] - 1) = part b x i (Lp.[S i] - 1)).
      { apply part_ext; auto; [lia|]. intros u Hu. apply aget_upd_ne. specialize (LT _ _ Hu). lia. }
      rewrite HE. destruct (Nat.eq_dec m i) as [<-|Hn]; [now rewrite aget_upd_eq by lia|].
      rewrite aget_upd_ne by auto. apply S0. lia.
  - intros y (L & B & S0). replace (max 0 n) with n in * by lia. apply HQ. unfold forward_solution. splits; auto.
Qed.

(** the solution is unique *)
Lemma forward_solution_unique b y y' : rows_lower n Lp Li ->
  forward_solution fms quo n Lp Li Lx b y -> forward_solution fms quo n Lp Li Lx b y' -> y = y'.
Proof.
  intros LT (L & O & H) (L' & O' & H'). apply list_ext; [congruence|]. intros i _.
  induction i as [i IH] using lt_wf_ind. destruct (le_lt_dec n i) as [Hi|Hi]; [rewrite O, O'; auto|].
  rewrite H, H' by auto. f_equal. apply (part_ext b y y' i (Lp.[S i] - 1)); auto.
Qed.

(** ** The machine *)
Variables (P : prog) (b y : list V).
Hypothesis PO : prog_ok n (row_dep n Lp Li) P.
Hypothesis HB : n <= length b.
Hypothesis FS : forward_solution fms quo n Lp Li Lx b y.

Notation step := (x_step fms quo Lp Li Lx P).

Definition pcinv (v : nat) (pc : rpc V) (x : list V) : Prop :=
  let e := Lp.[S v] - 1 in
  match pc with
  | RStart => x.[v] = b.[v]
  | RLoop j => Lp.[v] <= j <= e /\ x.[v] = part b y v j
  | RGotD j d => Lp.[v] <= j < e /\ x.[v] = part b y v j /\ d = y.[Li.[j]]
  | RGotA j d a => Lp.[v] <= j < e /\ x.[v] = part b y v j /\ d = y.[Li.[j]] /\ a = part b y v j
  | RDiv a => x.[v] = part b y v e /\ a = part b y v e
  end.

Definition thinv (rows : list nat) (th : tst) (x : list V) : Prop :=
  fst th <= length rows /\ (fst th < length rows -> pcinv rows.[fst th] (snd th) x).

(** the element of [x] is final / untouched *)
Definition done_at (l : nat) (ths : list (tst (V:=V))) (l' t' q' : nat) : Prop :=
  l' < l \/ (l' = l /\ q' < fst ths.[t']).
Definition todo_at (l : nat) (ths : list (tst (V:=V))) (l' t' q' : nat) : Prop :=
  l < l' \/ (l' = l /\ fst ths.[t'] < q').

Definition XInv (s : xstate) : Prop :=
  let '(l, ths, x) := s in
  l <= length P /\ length ths = length P.[l] /\ length x = length b /\
  (forall i, n <= i -> x.[i] = b.[i]) /\
  (forall t, t < length ths -> thinv P.[l].[t] ths.[t] x) /\
  (forall l' t' q' v, pat P l' t' q' v ->
     (done_at l ths l' t' q' -> x.[v] = y.[v]) /\ (todo_at l ths l' t' q' -> x.[v] = b.[v])).

Lemma enter_aget l t : t < length P.[l] -> (enter P l).[t] = (0, @RStart V).
Proof. intros. unfold enter. now apply aget_repeat. Qed.

Lemma start_XInv : XInv (x_start P b).
Proof.
  unfold x_start, XInv. splits; auto; try lia.
  - unfold enter. now rewrite repeat_length.
  - intros t Ht. unfold enter in Ht. rewrite repeat_length in Ht. rewrite enter_aget by auto. split; simpl; [lia|auto].
  - intros l' t' q' v (H1 & H2 & H3 & H4). split; auto.
    intros [H|[-> H]]; [lia|]. rewrite enter_aget in H by auto. simpl in H. lia.
Qed.

(** what a successful step of the current row does *)
Lemma row_step_inv l ths x t q pc : XInv (l, ths, x) -> l < length P -> t < length ths -> ths.[t] = (q, pc) ->
  q < length P.[l].[t] ->
  exists th' x', thread_step fms quo Lp Li Lx P.[l].[t] (q, pc) x = Ok (th', x') /\
    let v := P.[l].[t].[q] in
    length x' = length x /\ (forall i, i <> v -> x'.[i] = x.[i]) /\
    ((exists pc', th' = (q, pc') /\ pcinv v pc' x') \/ (th' = (S q, RStart) /\ x'.[v] = y.[v])).
Proof.
  intros (I1 & I2 & I3 & I4 & I5 & I6) Hl Ht Eth Hq.
  set (rows := P.[l].[t]) in *. set (v := rows.[q]).
  assert (Hp : pat P l t q v) by (unfold pat; splits; auto; lia).
  destruct PO as (P1 & P2 & P3 & P4). pose proof (P1 _ _ _ _ Hp) as Hv.
  destruct (row_bounds v Hv) as (B1 & B2 & B3).
  pose proof (I5 t Ht) as [_ HT]. rewrite Eth in HT. cbn [fst snd] in HT. specialize (HT Hq). fold rows in HT. fold v in HT.
  unfold thread_step. rewrite (rd_ok rows q) by auto. cbn [bind]. fold v.
  destruct pc as [|j|j d|j d a|a]; cbn [row_step pcinv] in *.
  - rewrite rd_ok by lia. cbn [bind]. do 2 eexists. split; [reflexivity|]. splits; auto.
    left. eexists. split; [reflexivity|]. simpl. split; [lia|]. now rewrite part_0.
  - rewrite rd_ok by lia. cbn [bind]. destruct HT as (Hj & Hx). destruct (Nat.ltb_spec j (Lp.[S v] - 1)) as [Hlt|Hge].
    + destruct (row_index v j Hv ltac:(lia)) as (R1 & R2 & R3). rewrite !rd_ok by lia. cbn [bind].
      rewrite rd_ok by lia. cbn [bind].
      do 2 eexists. split; [reflexivity|]. splits; auto. left. eexists. split; [reflexivity|]. simpl. splits; auto; try lia.
      assert (HD : row_dep n Lp Li Li.[j] v) by (split; auto; exists j; split; auto; lia).
      destruct (P3 _ R1) as (l' & t' & q' & Hp'). destruct (I6 _ _ _ _ Hp') as [HF _]. apply HF.
      destruct (P4 _ _ _ _ _ _ _ _ HD Hp' Hp) as [?|(-> & -> & ?)]; [now left|right]. split; auto. rewrite Eth. auto.
    + rewrite rd_ok by lia. cbn [bind]. do 2 eexists. split; [reflexivity|]. splits; auto.
      left. eexists. split; [reflexivity|]. replace j with (Lp.[S v] - 1) in * by lia. simpl. auto.
  - destruct HT as (Hj & Hx & Hd). rewrite rd_ok by lia. cbn [bind]. do 2 eexists. split; [reflexivity|]. splits; auto.
    left. eexists. split; [reflexivity|]. simpl. splits; auto; lia.
  - destruct HT as (Hj & Hx & Hd & Ha). destruct (row_index v j Hv ltac:(lia)) as (R1 & R2 & R3).
    rewrite rd_ok by lia. cbn [bind]. rewrite wr_ok by lia. cbn [bind]. do 2 eexists. split; [reflexivity|].
    rewrite upd_length. splits; auto. { intros i Hi. now rewrite aget_upd_ne by auto. }
    left. eexists. split; [reflexivity|]. simpl. split; [lia|]. rewrite aget_upd_eq by lia. rewrite part_S by lia. congruence.
  - destruct HT as (Hx & Ha). destruct (row_index v (Lp.[S v] - 1) Hv ltac:(lia)) as (R1 & R2 & R3).
    rewrite rd_ok by lia. cbn [bind]. replace (Lp.[S v] =? 0) with false by lia. rewrite rd_ok by lia. cbn [bind].
    rewrite wr_ok by lia. cbn [bind]. do 2 eexists. split; [reflexivity|].
    rewrite upd_length. splits; auto. { intros i Hi. now rewrite aget_upd_ne by auto. }
    right. split; auto. rewrite aget_upd_eq by lia. destruct FS as (_ & _ & F). rewrite F by auto. unfold part in Ha. congruence.
Qed.

Lemma step_XInv s s' : XInv s -> step s s' -> XInv s'.
Proof.
  intros HI Hs. inversion Hs as [l ths x t th th' x' Hl Hth Hnd Hst|l ths x Hl Hd]; subst; clear Hs.
  - pose proof HI as (I1 & I2 & I3 & I4 & I5 & I6).
    assert (Ht : t < length ths) by (apply nth_error_Some; congruence).
    pose proof (aget_nth_error _ _ _ Hth) as Eth. destruct th as [q pc].
    pose proof (I5 t Ht) as [HQ _]. rewrite Eth in HQ. simpl in HQ.
    assert (Hq : q < length P.[l].[t]). { unfold thread_done in Hnd. simpl in Hnd. lia. }
    destruct (row_step_inv l ths x t q pc HI Hl Ht Eth Hq) as (th2 & x2 & E2 & L2 & O2 & C2).
    rewrite Hst in E2. inversion E2; subst th2 x2. clear E2.
    set (v := P.[l].[t].[q]) in *.
    assert (Hp : pat P l t q v) by (unfold pat; splits; auto; lia).
    destruct PO as (P1 & P2 & P3 & P4). pose proof (P1 _ _ _ _ Hp) as Hv.
    unfold XInv. rewrite !upd_length. splits; auto; try lia.
    + intros i Hi. rewrite O2 by lia. auto.
    + intros t2 Ht2. destruct (Nat.eq_dec t t2) as [<-|Hne].
      * rewrite aget_upd_eq by auto. unfold thinv. destruct C2 as [(pc' & -> & HP)|(-> & HP)]; simpl; split; auto; try lia.
        intros HS. assert (Hp2 : pat P l t (S q) P.[l].[t].[S q]) by (unfold pat; splits; auto; lia).
        rewrite O2. { destruct (I6 _ _ _ _ Hp2) as [_ HF]. apply HF. right. split; auto. rewrite Eth. simpl. lia. }
        intros Heq. rewrite Heq in Hp2. destruct (P2 _ _ _ _ _ _ _ Hp Hp2) as (_ & _ & ?). lia.
      * rewrite aget_upd_ne by auto. pose proof (I5 t2 Ht2) as [HA HC]. split; auto. intros HQ2. specialize (HC HQ2).
        assert (Hp2 : pat P l t2 (fst ths.[t2]) P.[l].[t2].[fst ths.[t2]]) by (unfold pat; splits; auto; lia).
        set (v2 := P.[l].[t2].[fst ths.[t2]]) in *.
        assert (Hvv : v2 <> v). { intros Heq. rewrite Heq in Hp2. destruct (P2 _ _ _ _ _ _ _ Hp Hp2) as (_ & ? & _). lia. }
        unfold pcinv in *. destruct (snd ths.[t2]); rewrite O2 by auto; auto.
    + intros l' t' q' w Hw. destruct (I6 _ _ _ _ Hw) as [J1 J2].
      assert (Hfst : fst (upd ths t th').[t'] = if Nat.eq_dec t t' then fst th' else fst ths.[t']).
      { destruct (Nat.eq_dec t t') as [<-|]; [now rewrite aget_upd_eq by auto|now rewrite aget_upd_ne by auto]. }
      unfold done_at, todo_at in *. rewrite Hfst.
      destruct (Nat.eq_dec w v) as [->|Hwv].
      * destruct (P2 _ _ _ _ _ _ _ Hp Hw) as (<- & <- & <-). destruct (Nat.eq_dec t t) as [_|]; [|lia].
        destruct C2 as [(pc' & -> & HP)|(-> & HP)]; simpl; split; auto; intros [?|[_ ?]]; try lia.
      * rewrite O2 by auto. destruct (Nat.eq_dec t t') as [<-|]; [|split; auto].
        rewrite Eth in J1, J2. simpl in J1, J2.
        assert (HQ' : l' = l -> q' <> q). { intros -> ->. destruct Hp as (_ & _ & _ & Ev). destruct Hw as (_ & _ & _ & Ew). congruence. }
        destruct C2 as [(pc' & -> & HP)|(-> & HP)]; simpl; split; intros [?|[-> ?]]; try (apply J1; lia); try (apply J2; lia).
        all: specialize (HQ' eq_refl); try (apply J1; lia); try (apply J2; lia).
  - destruct HI as (I1 & I2 & I3 & I4 & I5 & I6). unfold XInv. splits; auto; try lia.
    + unfold enter. now rewrite repeat_length.
    + intros t Ht. unfold enter in Ht. rewrite repeat_length in Ht. rewrite enter_aget by auto. split; simpl; [lia|].
      intros HQ. assert (Hp : pat P (S l) t 0 P.[S l].[t].[0]).
      { unfold pat. splits; auto. destruct (lt_dec (S l) (length P)); auto. unfold aget in Ht. rewrite nth_overflow in Ht by lia. simpl in Ht. lia. }
      destruct (I6 _ _ _ _ Hp) as [_ J]. apply J. left. lia.
    + intros l' t' q' v Hp. destruct (I6 _ _ _ _ Hp) as [J1 J2]. split.
      * intros [?|[-> H]].
        -- apply J1. destruct (Nat.eq_dec l' l) as [->|]; [right|left; lia]. split; auto.
           destruct Hp as (Q1 & Q2 & Q3 & _). assert (Ht' : t' < length ths) by lia.
           specialize (Hd t' ths.[t'] (nth_error_aget _ _ Ht')). unfold thread_done in Hd. lia.
        -- rewrite enter_aget in H by apply Hp. simpl in H. lia.
      * intros [?|[-> H]]; apply J2; left; lia.
Qed.

Lemma steps_XInv s s' : XInv s -> x_steps fms quo Lp Li Lx P s s' -> XInv s'.
Proof. intros HI Hs. induction Hs as [s|s s1 s2 Hs IH H1]; auto. exact (step_XInv _ _ (IH HI) H1). Qed.

Lemma XInv_not_bad s : XInv s -> ~ x_bad fms quo Lp Li Lx P s.
Proof.
  destruct s as [[l ths] x]. intros HI (Hl & t & th & e & Hth & Hnd & He).
  pose proof HI as (I1 & I2 & I3 & I4 & I5 & I6).
  assert (Ht : t < length ths) by (apply nth_error_Some; congruence).
  pose proof (aget_nth_error _ _ _ Hth) as Eth. destruct th as [q pc].
  pose proof (I5 t Ht) as [HQ _]. rewrite Eth in HQ. simpl in HQ.
  assert (Hq : q < length P.[l].[t]). { unfold thread_done in Hnd. simpl in Hnd. lia. }
  destruct (row_step_inv l ths x t q pc HI Hl Ht Eth Hq) as (th2 & x2 & E2 & _). congruence.
Qed.

Lemma XInv_final s : XInv s -> x_final P s -> snd s = y.
Proof.
  destruct s as [[l ths] x]. unfold x_final. simpl. intros (I1 & I2 & I3 & I4 & I5 & I6) Hf.
  destruct FS as (F1 & F2 & F3). apply list_ext; [congruence|]. intros i _.
  destruct (le_lt_dec n i) as [Hi|Hi]; [rewrite F2, I4; auto|].
  destruct PO as (P1 & P2 & P3 & P4). destruct (P3 i Hi) as (l' & t' & q' & Hp).
  destruct (I6 _ _ _ _ Hp) as [J _]. apply J. left. destruct Hp. lia.
Qed.

Lemma XInv_progress s : XInv s -> x_final P s \/ exists s', step s s'.
Proof.
  destruct s as [[l ths] x]. intros HI. pose proof HI as (I1 & I2 & I3 & I4 & I5 & I6).
  destruct (Nat.eq_dec l (length P)) as [->|Hl]; [left; reflexivity|right].
  destruct (le_lt_dec (length ths) (cnt 0 (length ths) (fun t => fst ths.[t] =? length P.[l].[t]))) as [Hc|Hc].
  - eexists. apply xs_barrier; [lia|]. intros t th Hth.
    assert (Ht : t < length ths) by (apply nth_error_Some; congruence).
    pose proof (cnt_le 0 (length ths) (fun t => fst ths.[t] =? length P.[l].[t])) as Hc2.
    pose proof (cnt_full 0 (length ths) (fun t => fst ths.[t] =? length P.[l].[t]) ltac:(lia) t ltac:(lia)) as HF. simpl in HF.
    pose proof (aget_nth_error _ _ _ Hth) as Eth. rewrite Eth in HF. unfold thread_done. lia.
  - destruct (cnt_pos 0 (length ths) (fun t => negb (fst ths.[t] =? length P.[l].[t]))) as (t & Ht & HF).
    { assert (G : forall m, cnt 0 m (fun t => fst ths.[t] =? length P.[l].[t]) + cnt 0 m (fun t => negb (fst ths.[t] =? length P.[l].[t])) = m).
      { induction m as [|m IH]; [reflexivity|]. rewrite !cnt_S by lia. destruct (fst ths.[m] =? length P.[l].[m]); simpl; lia. }
      specialize (G (length ths)). lia. }
    pose proof (I5 t ltac:(lia)) as [HQ _].
    destruct (row_step_inv l ths x t (fst ths.[t]) (snd ths.[t]) HI ltac:(lia) ltac:(lia) ltac:(now destruct ths.[t]) ltac:(lia)) as (th2 & x2 & E2 & _).
    eexists. eapply xs_thread with (t := t); [lia|apply nth_error_aget; lia| |].
    + unfold thread_done. lia.
    + destruct ths.[t]. exact E2.
Qed.

(** *** No race *)
Lemma XInv_no_race s : XInv s -> ~ x_race Lp Li P s.
Proof.
  destruct s as [[l ths] x]. intros HI (t & t' & th & th' & w & w' & c & Hne & E1 & E2 & A1 & A2 & HW).
  pose proof HI as (I1 & I2 & I3 & I4 & I5 & I6). destruct PO as (P1 & P2 & P3 & P4).
  assert (H1 : t < length ths) by (apply nth_error_Some; congruence).
  assert (H2 : t' < length ths) by (apply nth_error_Some; congruence).
  pose proof (aget_nth_error _ _ _ E1) as G1. pose proof (aget_nth_error _ _ _ E2) as G2.
  assert (Hl : l < length P).
  { destruct (lt_dec l (length P)); auto. unfold aget in I2. rewrite nth_overflow in I2 by lia. simpl in I2. lia. }
  (* every access is to the thread's own row or to a row it depends on *)
  assert (Own : forall t th w c, t < length ths -> ths.[t] = th -> next_access Lp Li P.[l].[t] th = Some (w, c) ->
     let v := P.[l].[t].[fst th] in pat P l t (fst th) v /\ (c = v \/ (w = false /\ row_dep n Lp Li c v))).
  { intros s sh ws cs Hs Es. unfold next_access. destruct (Nat.ltb_spec (fst sh) (length P.[l].[s])) as [Hf|]; [|discriminate].
    intros HA. assert (Hp : pat P l s (fst sh) P.[l].[s].[fst sh]) by (unfold pat; splits; auto; lia).
    split; auto. pose proof (I5 s Hs) as [_ HC]. rewrite Es in HC. specialize (HC Hf).
    set (v := P.[l].[s].[fst sh]) in *. pose proof (P1 _ _ _ _ Hp) as Hv.
    destruct (snd sh) as [|j|j d|j d a|a]; simpl in HC; try (inversion HA; auto; fail).
    destruct (Nat.ltb_spec j (Lp.[S v] - 1)); inversion HA; subst; auto. right. split; auto. split; auto.
    exists j. split; auto. lia. }
  destruct (Own t th w c H1 G1 A1) as [Q1 D1]. destruct (Own t' th' w' c H2 G2 A2) as [Q2 D2].
  set (v := P.[l].[t].[fst th]) in *. set (v' := P.[l].[t'].[fst th']) in *.
  assert (Hvv : v <> v'). { intros Heq. rewrite Heq in Q1. destruct (P2 _ _ _ _ _ _ _ Q1 Q2) as (_ & ? & _). lia. }
  destruct D1 as [->|[-> D1]], D2 as [D2|[-> D2]]; try congruence; try discriminate.
  - destruct (P4 _ _ _ _ _ _ _ _ D2 Q1 Q2) as [?|(_ & ? & _)]; lia.
  - subst c. destruct (P4 _ _ _ _ _ _ _ _ D1 Q2 Q1) as [?|(_ & ? & _)]; lia.
Qed.

(** *** Termination *)
Definition rowcost (i : nat) : nat := 3 * (Lp.[S i] - 1 - Lp.[i]) + 3.
Definition pcrem (i : nat) (pc : rpc V) : nat :=
  let e := Lp.[S i] - 1 in
  match pc with
  | RStart => rowcost i
  | RLoop j => 3 * (e - j) + 2
  | RGotD j _ => 3 * (e - j) + 1
  | RGotA j _ _ => 3 * (e - j)
  | RDiv _ => 1
  end.
Definition threm (rows : list nat) (th : tst) : nat :=
  if fst th <? length rows then pcrem rows.[fst th] (snd th) + sum_r (S (fst th)) (length rows) (fun q => rowcost rows.[q]) else 0.

Lemma thread_step_decr l ths x t q pc th' x' : XInv (l, ths, x) -> l < length P -> t < length ths -> ths.[t] = (q, pc) ->
  q < length P.[l].[t] -> thread_step fms quo Lp Li Lx P.[l].[t] (q, pc) x = Ok (th', x') ->
  threm P.[l].[t] th' < threm P.[l].[t] (q, pc).
Proof.
  intros (I1 & I2 & I3 & I4 & I5 & I6) Hl Ht Eth Hq.
  set (rows := P.[l].[t]) in *. set (v := rows.[q]).
  pose proof (I5 t Ht) as [_ HT]. rewrite Eth in HT. cbn [fst snd] in HT. specialize (HT Hq). fold rows in HT. fold v in HT.
  assert (Hp : pat P l t q v) by (unfold pat; splits; auto; lia).
  destruct PO as (P1 & P2 & P3 & P4). pose proof (P1 _ _ _ _ Hp) as Hv.
  destruct (row_bounds v Hv) as (B1 & B2 & B3).
  assert (Hsame : forall pc', pcrem v pc' < pcrem v pc -> threm rows (q, pc') < threm rows (q, pc)).
  { intros pc' Hlt. unfold threm. cbn [fst snd]. destruct (Nat.ltb_spec q (length rows)); [|lia]. fold v. lia. }
  assert (Hnext : 0 < pcrem v pc -> threm rows (S q, RStart) < threm rows (q, pc)).
  { intros Hpos. unfold threm. cbn [fst snd]. destruct (Nat.ltb_spec q (length rows)); [|lia]. fold v.
    destruct (Nat.ltb_spec (S q) (length rows)); [|lia]. rewrite (sum_r_first (S q)) by lia. simpl pcrem. lia. }
  unfold thread_step. rewrite (rd_ok rows q) by auto. cbn [bind]. fold v.
  destruct pc as [|j|j d|j d a|a]; cbn [row_step pcinv] in *.
  - rewrite rd_ok by lia. cbn [bind]. intros E; inversion E; subst. apply Hsame. simpl. unfold rowcost. lia.
  - rewrite rd_ok by lia. cbn [bind]. destruct HT as (Hj & Hx). destruct (Nat.ltb_spec j (Lp.[S v] - 1)) as [Hlt|Hge].
    + destruct (row_index v j Hv ltac:(lia)) as (R1 & R2 & R3). rewrite !rd_ok by lia. cbn [bind].
      rewrite rd_ok by lia. cbn [bind]. intros E; inversion E; subst. apply Hsame. simpl. lia.
    + rewrite rd_ok by lia. cbn [bind]. intros E; inversion E; subst. apply Hsame. simpl. lia.
  - destruct HT as (Hj & Hx & Hd). rewrite rd_ok by lia. cbn [bind]. intros E; inversion E; subst. apply Hsame. simpl. lia.
  - destruct HT as (Hj & Hx & Hd & Ha). destruct (row_index v j Hv ltac:(lia)) as (R1 & R2 & R3).
    rewrite rd_ok by lia. cbn [bind]. rewrite wr_ok by lia. cbn [bind]. intros E; inversion E; subst. apply Hsame. simpl. lia.
  - destruct (row_index v (Lp.[S v] - 1) Hv ltac:(lia)) as (R1 & R2 & R3).
    rewrite rd_ok by lia. cbn [bind]. replace (Lp.[S v] =? 0) with false by lia. rewrite rd_ok by lia. cbn [bind].
    rewrite wr_ok by lia. cbn [bind]. intros E; inversion E; subst. apply Hnext. simpl. lia.
Qed.

Definition Terminates (s : xstate) : Prop := Acc (fun s' s => step s s') s.

Lemma XInv_terminates s : XInv s -> Terminates s.
Proof.
  assert (G : forall a c l ths x, length P - l <= a -> sum_r 0 (length ths) (fun t => threm P.[l].[t] ths.[t]) <= c ->
     XInv (l, ths, x) -> Terminates (l, ths, x)).
  { induction a as [a IHa] using lt_wf_ind. induction c as [c IHc] using lt_wf_ind. intros l ths x Ha Hc HI.
    constructor. intros s' Hs. pose proof (step_XInv _ _ HI Hs) as HI'.
    inversion Hs as [l0 ths0 x0 t th th' x' Hl Hth Hnd Hst|l0 ths0 x0 Hl Hd]; subst.
    - pose proof HI as (I1 & I2 & I3 & I4 & I5 & I6).
      assert (Ht : t < length ths) by (apply nth_error_Some; congruence).
      pose proof (aget_nth_error _ _ _ Hth) as Eth. destruct th as [q pc].
      pose proof (I5 t Ht) as [HQ _]. rewrite Eth in HQ. simpl in HQ.
      assert (Hq : q < length P.[l].[t]). { unfold thread_done in Hnd. simpl in Hnd. lia. }
      pose proof (thread_step_decr l ths x t q pc th' x' HI Hl Ht Eth Hq Hst) as Hdec.
      assert (Hsum : sum_r 0 (length (upd ths t th')) (fun s => threm P.[l].[s] (upd ths t th').[s]) + threm P.[l].[t] (q, pc)
                   = sum_r 0 (length ths) (fun s => threm P.[l].[s] ths.[s]) + threm P.[l].[t] th').
      { rewrite upd_length. rewrite (sum_r_split 0 t), (sum_r_first t) by lia.
        rewrite (sum_r_split 0 t (length ths) (fun s => threm P.[l].[s] ths.[s])), (sum_r_first t _ (fun s => threm P.[l].[s] ths.[s])) by lia.
        rewrite aget_upd_eq by auto. rewrite Eth.
        rewrite (sum_r_ext 0 t (fun s => threm P.[l].[s] (upd ths t th').[s]) (fun s => threm P.[l].[s] ths.[s])).
        2:{ intros i Hi. now rewrite aget_upd_ne by lia. }
        rewrite (sum_r_ext (S t) (length ths) (fun s => threm P.[l].[s] (upd ths t th').[s]) (fun s => threm P.[l].[s] ths.[s])).
        2:{ intros i Hi. now rewrite aget_upd_ne by lia. }
        lia. }
      eapply (IHc (sum_r 0 (length (upd ths t th')) (fun s => threm P.[l].[s] (upd ths t th').[s]))); auto; lia.
    - eapply (IHa (length P - S l)); [lia|lia|apply Nat.le_refl|auto]. }
  destruct s as [[l ths] x]. intros HI. eapply G; [apply Nat.le_refl|apply Nat.le_refl|auto].
Qed.

Lemma terminates_no_infinite s : Terminates s -> ~ exists f, f 0 = s /\ forall i, step (f i) (f (S i)).
Proof.
  intros HT. induction HT as [s _ IH]. intros (f & H0 & Hf).
  apply (IH (f 1)).
  - rewrite <- H0. apply Hf.
  - exists (fun i => f (S i)). split; auto.
Qed.

Lemma terminates_exec : exists x', x_exec fms quo Lp Li Lx P b x'.
Proof.
  assert (G : forall s, Terminates s -> XInv s -> x_steps fms quo Lp Li Lx P (x_start P b) s -> exists x', x_exec fms quo Lp Li Lx P b x').
  { intros s HT. induction HT as [s _ IH]. intros HI Hs. destruct (XInv_progress s HI) as [HF|(s' & Hs')].
    - destruct s as [[l ths] x]. exists x, l, ths. split; auto.
    - apply (IH s'); auto; [exact (step_XInv s s' HI Hs')|eapply xss_step; eauto]. }
  apply (G (x_start P b)); [apply XInv_terminates|..]; try apply start_XInv. constructor.
Qed.

End Solve.
