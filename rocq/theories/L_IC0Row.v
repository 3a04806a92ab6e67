(** Proofs about the parallel row-wise kernels: a program in which every element is written once, from itself and from elements
    written before by the same thread, has one result. *)
From Coq Require Import ZifyBool ZifyNat.
From Verif Require Import Base Lib Lib2 M_IC0Row.

Section Mach.
Context {V : Type} {DV : Dflt V}.
Variables (fms : V -> V -> V -> V) (quo : V -> V -> V) (root : V -> V).
Variables (OP : rprog) (x0 : list V) (fin : nat -> V).

(** operation [o] is at position [q] of thread [t] of level [l] *)
Definition rat (l t q : nat) (o : rop) : Prop := l < length OP /\ t < length OP.[l] /\ nth_error OP.[l].[t] q = Some o.
Definition arg (o : rop) (c : nat) : V := if c =? rtgt o then x0.[c] else fin c.

Hypothesis H1 : forall l t q o l' t' q' o', rat l t q o -> rat l' t' q' o' -> rtgt o = rtgt o' -> l = l' /\ t = t' /\ q = q'.
Hypothesis H2 : forall l t q o c, rat l t q o -> In c (rsrc o) -> c = rtgt o \/ exists q' o', q' < q /\ rat l t q' o' /\ rtgt o' = c.
Hypothesis H3 : forall l t q o, rat l t q o -> rtgt o < length x0.
Hypothesis H4 : forall l t q o, rat l t q o -> rval fms quo root o (map (arg o) (rsrc o)) = fin (rtgt o).

Definition rdone (l : nat) (ths : list (rst V)) (l' t' q' : nat) : Prop := l' < l \/ (l' = l /\ q' < fst ths.[t']).

Definition thread_inv (l t : nat) (th : rst V) : Prop :=
  let '(q, vs) := th in
  q <= length OP.[l].[t] /\
  match nth_error OP.[l].[t] q with
  | Some o => length vs <= length (rsrc o) /\ vs = map (arg o) (firstn (length vs) (rsrc o))
  | None => vs = []
  end.

Definition RInv (s : rstate V) : Prop :=
  let '(l, ths, x) := s in
  l <= length OP /\ length ths = length OP.[l] /\ length x = length x0 /\
  (forall l' t' q' o, rat l' t' q' o -> rdone l ths l' t' q' -> x.[rtgt o] = fin (rtgt o)) /\
  (forall k, (forall l' t' q' o, rat l' t' q' o -> rdone l ths l' t' q' -> rtgt o <> k) -> x.[k] = x0.[k]) /\
  (forall t, t < length ths -> thread_inv l t ths.[t]).

Lemma enter_inv l t : t < length (@renter V OP l) -> (@renter V OP l).[t] = (0, []) /\ thread_inv l t (renter OP l).[t].
Proof.
  unfold renter. rewrite repeat_length. intros Ht. rewrite aget_repeat by auto. split; auto. unfold thread_inv. split; [lia|].
  destruct (nth_error OP.[l].[t] 0); [split; [cbn [length]; lia|reflexivity]|reflexivity].
Qed.

Lemma start_RInv : RInv (r_start OP x0).
Proof.
  unfold RInv, r_start. splits; auto; try lia.
  - unfold renter. now rewrite repeat_length.
  - intros l' t' q' o (A & B & C) [D|(D & E)]; [lia|]. subst l'. destruct (enter_inv 0 t') as (F & _); [unfold renter; now rewrite repeat_length|]. rewrite F in E. cbn in E. lia.
  - intros t Ht. now apply enter_inv.
Qed.

Lemma src_value l ths x t q vs o c : RInv (l, ths, x) -> t < length ths -> ths.[t] = (q, vs) -> rat l t q o -> In c (rsrc o) -> x.[c] = arg o c /\ c < length x.
Proof.
  intros (I1 & I2 & I3 & I4 & I5 & I6) Ht E A Hc. unfold arg. pose proof (H3 _ _ _ _ A) as B3. destruct (H2 _ _ _ _ _ A Hc) as [->|(q' & o' & Q & A' & <-)].
  - rewrite Nat.eqb_refl. split; [|lia]. apply I5. intros l' t' q' o' A' D X. destruct (H1 _ _ _ _ _ _ _ _ A A' (eq_sym X)) as (<- & <- & <-). unfold rdone in D. rewrite E in D. cbn in D. lia.
  - pose proof (H3 _ _ _ _ A'). split; [|lia]. destruct (Nat.eqb_spec (rtgt o') (rtgt o)) as [X|X]; [destruct (H1 _ _ _ _ _ _ _ _ A' A X) as (_ & _ & ?); lia|].
    apply (I4 l t q' o'); auto. right. rewrite E. cbn. auto.
Qed.

Lemma firstn_snoc {A} (l : list A) k c : nth_error l k = Some c -> firstn (S k) l = firstn k l ++ [c].
Proof. revert k. induction l as [|y l IH]; intros [|k] H; cbn in *; try discriminate; [now injection H as ->|]. now rewrite (IH k H). Qed.

Lemma thread_step_ok l ths x t q vs : RInv (l, ths, x) -> l < length OP -> t < length ths -> ths.[t] = (q, vs) -> q <> length OP.[l].[t] ->
  exists o, rat l t q o /\
  ((exists c, nth_error (rsrc o) (length vs) = Some c /\ rthread_step fms quo root OP.[l].[t] (q, vs) x = Ok ((q, vs ++ [x.[c]]), x) /\ x.[c] = arg o c) \/
   (nth_error (rsrc o) (length vs) = None /\ vs = map (arg o) (rsrc o) /\ rthread_step fms quo root OP.[l].[t] (q, vs) x = Ok ((S q, []), upd x (rtgt o) (fin (rtgt o))))).
Proof.
  intros HI Hl Ht E ND. pose proof HI as (I1 & I2 & I3 & I4 & I5 & I6). pose proof (I6 t Ht) as T. rewrite E in T. destruct T as (Q & T).
  destruct (nth_error OP.[l].[t] q) as [o|] eqn:EO; [|apply nth_error_None in EO; lia]. destruct T as (LV & EV).
  assert (A : rat l t q o) by (unfold rat; splits; auto; lia). exists o. split; [exact A|].
  assert (R : rd OP.[l].[t] q = Ok o) by (rewrite rd_ok by lia; f_equal; now apply aget_nth_error).
  unfold rthread_step. rewrite R. cbn [bind]. destruct (nth_error (rsrc o) (length vs)) as [c|] eqn:ES.
  - left. exists c. split; [reflexivity|]. destruct (src_value l ths x t q vs o c HI Ht E A) as (X & Y); [eapply nth_error_In; eauto|]. rewrite rd_ok by auto. cbn [bind]. auto.
  - right. split; [reflexivity|]. apply nth_error_None in ES. rewrite firstn_all2 in EV by lia. split; [exact EV|]. pose proof (H3 _ _ _ _ A). rewrite wr_ok by lia. cbn [bind].
    assert (RV : rval fms quo root o vs = fin (rtgt o)) by (rewrite EV; eapply H4; eauto). now rewrite RV.
Qed.

Lemma step_RInv s s' : RInv s -> r_step fms quo root OP s s' -> RInv s'.
Proof.
  intros HI HS. inversion HS as [l ths x t th th' x' Hl Hth Hnd Hst|l ths x Hl Hd]; subst.
  - assert (Ht : t < length ths) by (apply nth_error_Some; congruence). pose proof (aget_nth_error _ _ _ Hth) as Eth. destruct th as [q vs].
    destruct (thread_step_ok l ths x t q vs HI Hl Ht Eth Hnd) as (o & A & [(c & ES & EX & EA)|(ES & EV & EX)]); rewrite EX in Hst; injection Hst as <- <-;
      pose proof HI as (I1 & I2 & I3 & I4 & I5 & I6); pose proof A as (_ & _ & EO).
    + assert (D : forall l' t' q', rdone l (upd ths t (q, vs ++ [x.[c]])) l' t' q' <-> rdone l ths l' t' q').
      { intros. unfold rdone. destruct (Nat.eq_dec t' t) as [->|]; [rewrite aget_upd_eq, Eth by auto; reflexivity|rewrite aget_upd_ne by auto; reflexivity]. }
      unfold RInv. rewrite upd_length. splits; auto.
      * intros l' t' q' o' A' X. apply D in X. eauto.
      * intros k Hk. apply I5. intros l' t' q' o' A' X. eapply Hk; eauto. apply D. exact X.
      * intros t' Ht'. destruct (Nat.eq_dec t' t) as [->|]; [|rewrite aget_upd_ne by auto; auto]. rewrite aget_upd_eq by auto.
        specialize (I6 t Ht). rewrite Eth in I6. destruct I6 as (Q & T). rewrite EO in T. destruct T as (T1 & T2). unfold thread_inv. rewrite EO, app_length. cbn [length]. splits; auto.
        -- assert (length vs < length (rsrc o)) by (apply nth_error_Some; congruence). lia.
        -- rewrite Nat.add_1_r. rewrite (firstn_snoc _ _ c ES), map_app. cbn [map]. rewrite <- T2, EA. reflexivity.
    + assert (D : forall l' t' q', rdone l (upd ths t (S q, [])) l' t' q' <-> rdone l ths l' t' q' \/ (l' = l /\ t' = t /\ q' = q)).
      { intros. unfold rdone. destruct (Nat.eq_dec t' t) as [->|]; [rewrite aget_upd_eq, Eth by auto; cbn; lia|rewrite aget_upd_ne by auto; lia]. }
      pose proof (H3 _ _ _ _ A) as HB. unfold RInv. rewrite !upd_length. splits; auto.
      * intros l' t' q' o' A' X. destruct (Nat.eq_dec (rtgt o') (rtgt o)) as [EQ|NE]; [rewrite EQ; apply aget_upd_eq; lia|]. rewrite aget_upd_ne by auto.
        apply D in X. destruct X as [X|(-> & -> & ->)]; [eauto|]. destruct A' as (_ & _ & A'). congruence.
      * intros k Hk. assert (rtgt o <> k) by (eapply Hk; [exact A|apply D; auto]). rewrite aget_upd_ne by auto. apply I5. intros l' t' q' o' A' X. eapply Hk; eauto. apply D. auto.
      * intros t' Ht'. destruct (Nat.eq_dec t' t) as [->|]; [|rewrite aget_upd_ne by auto; auto]. rewrite aget_upd_eq by auto.
        unfold thread_inv. assert (q < length OP.[l].[t]) by (apply nth_error_Some; congruence). split; [lia|]. destruct (nth_error OP.[l].[t] (S q)); auto. cbn. split; [lia|reflexivity].
  - destruct HI as (I1 & I2 & I3 & I4 & I5 & I6).
    assert (D : forall l' t' q' o, rat l' t' q' o -> (rdone (S l) (renter OP (S l)) l' t' q' <-> rdone l ths l' t' q')).
    { intros l' t' q' o (A1 & A2 & A3). unfold rdone. destruct (Nat.eq_dec l' l) as [->|].
      - destruct (nth_error ths t') as [th|] eqn:ET; [|apply nth_error_None in ET; lia]. specialize (Hd t' th ET). rewrite (aget_nth_error _ _ _ ET). unfold rthread_done in Hd. rewrite Hd.
        assert (q' < length OP.[l].[t']) by (apply nth_error_Some; congruence). lia.
      - destruct (Nat.eq_dec l' (S l)) as [->|]; [|lia]. destruct (enter_inv (S l) t') as (F & _); [unfold renter; now rewrite repeat_length|]. rewrite F. cbn. lia. }
    unfold RInv. splits; auto.
    + unfold renter. now rewrite repeat_length.
    + intros l' t' q' o A X. apply (D _ _ _ _ A) in X. eauto.
    + intros k Hk. apply I5. intros l' t' q' o A X. eapply Hk; eauto. now apply (D _ _ _ _ A).
    + intros t Ht. now apply enter_inv.
Qed.

Lemma steps_RInv s s' : RInv s -> r_steps fms quo root OP s s' -> RInv s'.
Proof. intros HI HS. induction HS as [|a b c A IH B]; [auto|]. eapply step_RInv; [apply IH; exact HI|exact B]. Qed.

Lemma RInv_not_bad s : RInv s -> ~ r_bad fms quo root OP s.
Proof.
  destruct s as [[l ths] x]. intros HI (Hl & t & [q vs] & e & Hth & Hnd & HE). assert (Ht : t < length ths) by (apply nth_error_Some; congruence).
  pose proof (aget_nth_error _ _ _ Hth) as Eth. destruct (thread_step_ok l ths x t q vs HI Hl Ht Eth Hnd) as (o & A & [(c & _ & EX & _)|(_ & _ & EX)]); rewrite EX in HE; discriminate.
Qed.

Lemma RInv_progress s : RInv s -> r_final OP s \/ exists s', r_step fms quo root OP s s'.
Proof.
  destruct s as [[l ths] x]. intros HI. pose proof HI as (I1 & I2 & _). unfold r_final. cbn [fst].
  destruct (Nat.eq_dec l (length OP)) as [|Hne]; auto. right.
  destruct (forallb (fun t => fst ths.[t] =? length OP.[l].[t]) (seq 0 (length ths))) eqn:EF.
  - eexists. apply rs_barrier; [lia|]. intros t th Hth. rewrite forallb_forall in EF.
    assert (Ht : t < length ths) by (apply nth_error_Some; congruence). specialize (EF t). rewrite in_seq in EF. specialize (EF ltac:(lia)).
    apply aget_nth_error in Hth. rewrite Hth in EF. unfold rthread_done. lia.
  - assert (exists t, t < length ths /\ fst ths.[t] <> length OP.[l].[t]) as (t & Ht & Hnd).
    { assert (G : forall m, forallb (fun t => fst ths.[t] =? length OP.[l].[t]) m = false -> exists t, In t m /\ fst ths.[t] <> length OP.[l].[t]).
      { induction m as [|a m IH]; simpl; [discriminate|]. destruct (Nat.eqb_spec (fst ths.[a]) (length OP.[l].[a])) as [|Hn]; [|exists a; auto].
        simpl. intros E. destruct (IH E) as (t & ? & ?). exists t. auto. }
      destruct (G _ EF) as (t & Hin & ?). apply in_seq in Hin. exists t. split; auto; lia. }
    destruct (ths.[t]) as [q vs] eqn:Eth. assert (NE : nth_error ths t = Some (q, vs)) by (rewrite nth_error_aget by auto; now rewrite Eth).
    destruct (thread_step_ok l ths x t q vs HI ltac:(lia) Ht Eth Hnd) as (o & A & [(c & _ & EX & _)|(_ & _ & EX)]);
      eexists; (eapply rs_thread with (t := t); [lia|exact NE|exact Hnd|exact EX]).
Qed.

(** what a thread accesses it writes itself, at that position or before *)
Lemma next_target l t (th : rst V) a c : t < length OP.[l] -> l < length OP -> rnext OP.[l].[t] th = Some (a, c) -> exists q o, rat l t q o /\ rtgt o = c.
Proof.
  intros Ht Hl. unfold rnext. destruct (nth_error OP.[l].[t] (fst th)) as [o|] eqn:EO; [|discriminate]. assert (A : rat l t (fst th) o) by (unfold rat; auto).
  destruct (nth_error (rsrc o) (length (snd th))) as [c'|] eqn:ES; intros E; injection E as <- <-; [|exists (fst th), o; auto].
  apply nth_error_In in ES. destruct (H2 _ _ _ _ _ A ES) as [->|(q' & o' & _ & A' & X)]; [exists (fst th), o; auto|exists q', o'; auto].
Qed.

Lemma RInv_no_race s : RInv s -> ~ r_race OP s.
Proof.
  destruct s as [[l ths] x]. intros (I1 & I2 & _) (t & t' & th & th' & a & a' & c & Hne & E1 & E2 & A1 & A2 & _).
  assert (X1 : t < length OP.[l]) by (rewrite <- I2; apply nth_error_Some; congruence). assert (X2 : t' < length OP.[l]) by (rewrite <- I2; apply nth_error_Some; congruence).
  assert (Hl : l < length OP). { destruct (Nat.lt_ge_cases l (length OP)); auto. unfold aget in X1. rewrite nth_overflow in X1 by auto. cbn in X1. lia. }
  destruct (next_target l t th a c X1 Hl A1) as (q & o & B1 & C1). destruct (next_target l t' th' a' c X2 Hl A2) as (q' & o' & B2 & C2).
  destruct (H1 _ _ _ _ _ _ _ _ B1 B2 ltac:(congruence)) as (_ & ? & _). auto.
Qed.

(** * Termination *)
Definition rrem (T : list rop) (th : rst V) : nat := 4 * (length T - fst th) - length (snd th).

Lemma rsrc_len o : length (rsrc o) <= 3. Proof. destruct o; cbn; lia. Qed.

Lemma RInv_terminates s : RInv s -> Acc (fun s' s => r_step fms quo root OP s s') s.
Proof.
  assert (G : forall a c l ths x, length OP - l <= a -> sum_r 0 (length ths) (fun t => rrem OP.[l].[t] ths.[t]) <= c ->
     RInv (l, ths, x) -> Acc (fun s' s => r_step fms quo root OP s s') (l, ths, x)).
  { induction a as [a IHa] using lt_wf_ind. induction c as [c IHc] using lt_wf_ind. intros l ths x Ha Hc HI.
    constructor. intros s' Hs. pose proof (step_RInv _ _ HI Hs) as HI'.
    inversion Hs as [l0 ths0 x1 t th th' x' Hl Hth Hnd Hst|l0 ths0 x1 Hl Hd]; subst.
    - assert (Ht : t < length ths) by (apply nth_error_Some; congruence). pose proof (aget_nth_error _ _ _ Hth) as Eth. destruct th as [q vs].
      assert (Hdec : rrem OP.[l].[t] th' < rrem OP.[l].[t] (q, vs)).
      { destruct (thread_step_ok l ths x t q vs HI Hl Ht Eth Hnd) as (o & A & K). pose proof A as (_ & _ & EO). assert (q < length OP.[l].[t]) by (apply nth_error_Some; congruence).
        pose proof (rsrc_len o). destruct K as [(d & ES & EX & EA)|(ES & EV & EX)]; rewrite EX in Hst; injection Hst as <- <-; unfold rrem; cbn [fst snd].
        - assert (length vs < length (rsrc o)) by (apply nth_error_Some; congruence). rewrite app_length. cbn [length]. lia.
        - rewrite EV, map_length. cbn [length]. lia. }
      assert (Hsum : sum_r 0 (length (upd ths t th')) (fun s => rrem OP.[l].[s] (upd ths t th').[s]) + rrem OP.[l].[t] (q, vs)
                   = sum_r 0 (length ths) (fun s => rrem OP.[l].[s] ths.[s]) + rrem OP.[l].[t] th').
      { rewrite upd_length. rewrite (sum_r_split 0 t), (sum_r_first t) by lia.
        rewrite (sum_r_split 0 t (length ths) (fun s => rrem OP.[l].[s] ths.[s])), (sum_r_first t _ (fun s => rrem OP.[l].[s] ths.[s])) by lia.
        rewrite aget_upd_eq by auto. rewrite Eth.
        rewrite (sum_r_ext 0 t (fun s => rrem OP.[l].[s] (upd ths t th').[s]) (fun s => rrem OP.[l].[s] ths.[s])).
        2:{ intros i Hi. now rewrite aget_upd_ne by lia. }
        rewrite (sum_r_ext (S t) (length ths) (fun s => rrem OP.[l].[s] (upd ths t th').[s]) (fun s => rrem OP.[l].[s] ths.[s])).
        2:{ intros i Hi. now rewrite aget_upd_ne by lia. }
        lia. }
      eapply (IHc (sum_r 0 (length (upd ths t th')) (fun s => rrem OP.[l].[s] (upd ths t th').[s]))); auto; lia.
    - eapply (IHa (length OP - S l)); [lia|lia|apply Nat.le_refl|auto]. }
  destruct s as [[l ths] x]. intros HI. eapply G; [apply Nat.le_refl|apply Nat.le_refl|auto].
Qed.

Lemma r_no_infinite : ~ exists f, f 0 = r_start OP x0 /\ forall i, r_step fms quo root OP (f i) (f (S i)).
Proof.
  assert (G : forall s, Acc (fun s' s => r_step fms quo root OP s s') s -> ~ exists f, f 0 = s /\ forall i, r_step fms quo root OP (f i) (f (S i))).
  { intros s HT. induction HT as [s _ IH]. intros (f & H0 & Hf). apply (IH (f 1)).
    - rewrite <- H0. apply Hf.
    - exists (fun i => f (S i)). split; auto. }
  apply G, RInv_terminates, start_RInv.
Qed.

Lemma r_exec_exists : exists x', r_exec fms quo root OP x0 x'.
Proof.
  assert (G : forall s, Acc (fun s' s => r_step fms quo root OP s s') s -> RInv s -> r_steps fms quo root OP (r_start OP x0) s -> exists x', r_exec fms quo root OP x0 x').
  { intros s HT. induction HT as [s _ IH]. intros HI Hs. destruct (RInv_progress s HI) as [HF|(s' & Hs')].
    - destruct s as [[l ths] x]. exists x, l, ths. split; auto.
    - apply (IH s'); auto; [exact (step_RInv s s' HI Hs')|eapply rss_step; eauto]. }
  apply (G (r_start OP x0)); [apply RInv_terminates|..]; try apply start_RInv. constructor.
Qed.

(** every element written holds its final value, the others their first one *)
Lemma r_exec_result x' : r_exec fms quo root OP x0 x' ->
  length x' = length x0 /\ (forall l t q o, rat l t q o -> x'.[rtgt o] = fin (rtgt o)) /\
  (forall k, (forall l t q o, rat l t q o -> rtgt o <> k) -> x'.[k] = x0.[k]).
Proof.
  intros (l & ths & Hs & ->). pose proof (steps_RInv _ _ start_RInv Hs) as (I1 & I2 & I3 & I4 & I5 & I6). splits; auto.
  - intros l t q o A. apply (I4 l t q o A). left. apply A.
  - intros k Hk. apply I5. intros l t q o A _. eauto.
Qed.
End Mach.
