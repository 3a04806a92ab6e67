(** Proofs about the incomplete Cholesky kernels: the parallel machine. *)
From Coq Require Import ZifyBool ZifyNat Permutation Sorting.Sorted.
From Verif Require Import Base Lib Lib2 Spec SpecIC M_SpTRSV M_IC0 L_SpTRSV L_Post L_IC0 L_IC1.

Section Mach.
Context {V : Type} {DV : Dflt V}.
Variables (fms : V -> V -> V -> V) (quo : V -> V -> V) (root : V -> V).
Variables (n : nat) (Lp Li : list nat).
Hypothesis CP : chol_pattern n Lp Li.
Variable P : prog.
Hypothesis PO : prog_ok n (edge n Lp Li) P.
Variable x0 : list V.
Hypothesis HX : Lp.[n] <= length x0.

Notation ops := (ops Lp Li).
Notation run := (run fms quo root).
Definition OP : iprog := map (map (flat_map ops)) P.

Lemma OP_len : length OP = length P. Proof. apply map_length. Qed.
Lemma OP_lev l : l < length P -> length OP.[l] = length P.[l].
Proof. intros Hl. unfold OP. rewrite aget_map by auto. apply map_length. Qed.
Lemma OP_get l t : l < length P -> t < length P.[l] -> OP.[l].[t] = flat_map ops P.[l].[t].
Proof. intros Hl Ht. unfold OP. rewrite aget_map by auto. now rewrite aget_map. Qed.

Lemma prog_good : good_prog n P.
Proof.
  intros L T i HL HT Hi. destruct PO as (P1 & _). apply In_aget in HL, HT, Hi.
  destruct HL as (l & Hl & <-), HT as (t & Ht & <-), Hi as (q & Hq & <-). apply (P1 l t q). unfold pat. auto.
Qed.

(** operation [o] is at position [q] of thread [t] of level [l] *)
Definition iat (l t q : nat) (o : icop) : Prop := l < length P /\ t < length P.[l] /\ nth_error OP.[l].[t] q = Some o.

Lemma iat_col l t q o : iat l t q o -> exists j u, pat P l t j u /\ u < n /\ In o (ops u).
Proof.
  intros (Hl & Ht & Hq). rewrite OP_get in Hq by auto. apply nth_error_In in Hq. apply in_flat_map in Hq. destruct Hq as (u & Hu & Ho).
  apply In_aget in Hu. destruct Hu as (j & Hj & <-). exists j, P.[l].[t].[j]. assert (pat P l t j P.[l].[t].[j]) by (unfold pat; auto).
  splits; auto. destruct PO as (P1 & _). eauto.
Qed.

Lemma thread_nodup l t : l < length P -> t < length P.[l] -> NoDup OP.[l].[t].
Proof.
  intros Hl Ht. rewrite OP_get by auto. destruct PO as (P1 & P2 & _).
  assert (HB : forall a, In a P.[l].[t] -> a < n).
  { intros a Ha. apply In_aget in Ha. destruct Ha as (j & Hj & <-). apply (P1 l t j). unfold pat. auto. }
  apply nodup_flat_map.
  - apply NoDup_nth with (d := dflt). intros i j Hi Hj E. change (P.[l].[t].[i] = P.[l].[t].[j]) in E.
    destruct (P2 l t i l t j P.[l].[t].[i]) as (_ & _ & ?); auto; unfold pat; auto.
  - intros a Ha. eapply ops_nodup; eauto.
  - intros a b o Ha Hb. eapply owner_unique; eauto.
Qed.

Lemma iat_unique l t q l' t' q' o : iat l t q o -> iat l' t' q' o -> l = l' /\ t = t' /\ q = q'.
Proof.
  intros H H'. destruct (iat_col _ _ _ _ H) as (j & u & Pj & Hu & Ho). destruct (iat_col _ _ _ _ H') as (j' & u' & Pj' & Hu' & Ho').
  pose proof (owner_unique n Lp Li CP o u u' Hu Hu' Ho Ho') as <-. destruct PO as (_ & P2 & _).
  destruct (P2 _ _ _ _ _ _ _ Pj Pj') as (<- & <- & _). splits; auto. destruct H as (Hl & Ht & Hq), H' as (_ & _ & Hq').
  eapply nodup_nth; eauto. apply thread_nodup; auto.
Qed.

Lemma iat_complete u o : u < n -> In o (ops u) -> exists l t q, iat l t q o.
Proof.
  intros Hu Ho. destruct PO as (_ & _ & P3 & _). destruct (P3 u Hu) as (l & t & j & Hl & Ht & Hj & E).
  assert (In o (OP.[l].[t])). { rewrite OP_get by auto. apply in_flat_map. exists u. split; auto. rewrite <- E. now apply aget_In. }
  apply In_nth_error in H. destruct H as (q & Hq). exists l, t, q. unfold iat. auto.
Qed.

Lemma iat_must l t q o l' t' q' o' : must o' o -> iat l' t' q' o' -> iat l t q o -> l' < l \/ (l' = l /\ t' = t /\ q' < q).
Proof.
  intros HM H' H. destruct (iat_col _ _ _ _ H) as (j & v & Pj & Hv & Ho). destruct (iat_col _ _ _ _ H') as (j' & u & Pj' & Hu & Ho').
  destruct PO as (_ & P2 & _ & P4). destruct (must_order n Lp Li CP o' o u v) as [He|(-> & Hb)]; auto.
  - destruct (P4 _ _ _ _ _ _ _ _ He Pj' Pj) as [|(-> & -> & Hq)]; auto. right. splits; auto.
    destruct H as (Hl & Ht & Hq1), H' as (_ & _ & Hq2). apply (before_nth o' o OP.[l].[t] q' q); auto; [apply thread_nodup; auto|].
    rewrite OP_get by auto. apply (before_flat_map _ u v); auto. destruct Pj as (_ & _ & A & B), Pj' as (_ & _ & A' & B').
    eapply nth_before; [exact Hq|..]; rewrite nth_error_aget by auto; congruence.
  - destruct (P2 _ _ _ _ _ _ _ Pj Pj') as (<- & <- & <-). right. splits; auto.
    destruct H as (Hl & Ht & Hq1), H' as (_ & _ & Hq2). apply (before_nth o' o OP.[l].[t] q' q); auto; [apply thread_nodup; auto|].
    rewrite OP_get by auto. apply (before_flat_map1 _ v); auto. destruct Pj as (_ & _ & A & <-). now apply aget_In.
Qed.

(** operations of two threads of a level do not interfere *)
Lemma iat_apart l t q o t' q' o' : t <> t' -> iat l t q o -> iat l t' q' o' ->
  tgt o <> src1 o' /\ tgt o <> src2 o' /\ (is_upd o = true /\ is_upd o' = true \/ tgt o <> tgt o').
Proof.
  intros Ht H H'.
  assert (N1 : ~ must o o'). { intros HM. destruct (iat_must _ _ _ _ _ _ _ _ HM H H') as [?|(_ & ? & _)]; lia. }
  assert (N2 : ~ must o' o). { intros HM. destruct (iat_must _ _ _ _ _ _ _ _ HM H' H) as [?|(_ & ? & _)]; lia. }
  assert (D : tgt o = tgt o' -> is_upd o = false -> is_upd o' = false -> False).
  { intros E E1 E2. destruct (iat_col _ _ _ _ H) as (j & u & _ & Hu & Ho). destruct (iat_col _ _ _ _ H') as (j' & u' & _ & Hu' & Ho').
    pose proof (fin_unique n Lp Li CP o o' u u' Hu Hu' Ho Ho' E1 E2 E). subst o'. destruct (iat_unique _ _ _ _ _ _ _ H H') as (_ & ? & _). lia. }
  assert (D2 : is_upd o' = false -> tgt o <> tgt o').
  { intros E2 E. destruct (is_upd o) eqn:E1; [apply N1; right; auto|eauto]. }
  assert (D3 : is_upd o = false -> tgt o <> tgt o').
  { intros E1 E. destruct (is_upd o') eqn:E2; [apply N2; right; auto|eauto]. }
  destruct (src_cases o') as (S1 & S2). splits.
  - intros E. destruct S1 as [(S1 & E2)|S1]; [apply (D2 E2); congruence|apply N1; left; congruence].
  - intros E. destruct S2 as [(S2 & E2)|S2]; [apply (D2 E2); congruence|apply N1; left; congruence].
  - destruct (is_upd o) eqn:E1; [|right; auto]. destruct (is_upd o') eqn:E2; [left; auto|right; auto].
Qed.

(** * Invariant *)
Definition executed (l : nat) (ths : list (ist V)) (o : icop) : Prop :=
  exists l' t' q', iat l' t' q' o /\ (l' < l \/ (l' = l /\ q' < fst ths.[t'])).

Definition regs_ok (x : list V) (T : list icop) (th : ist V) : Prop :=
  fst th <= length T /\
  match snd th with
  | IStart => True
  | IOne u => exists o, nth_error T (fst th) = Some o /\ u = x.[src1 o]
  | ITwo u w => exists o, nth_error T (fst th) = Some o /\ u = x.[src1 o] /\ w = x.[src2 o]
  end.

Definition IInv (s : istate V) : Prop :=
  let '(l, ths, x) := s in
  l <= length P /\ length ths = length OP.[l] /\
  (exists h, x = run h x0 /\ NoDup h /\ (forall o, In o h <-> executed l ths o) /\ ordered h) /\
  (forall t, t < length ths -> regs_ok x OP.[l].[t] ths.[t]).

Lemma tstep l t q pc o x : iat l t q o -> length x = length x0 ->
  ithread_step fms quo root OP.[l].[t] (q, pc) x = Ok
    match pc with
    | IStart => ((q, IOne x.[src1 o]), x)
    | IOne u => ((q, ITwo u x.[src2 o]), x)
    | ITwo u w => ((S q, IStart), upd x (tgt o) match o with ORoot _ => quo w (root u) | ODiv _ _ => quo u w | OUpd k _ _ => fms x.[k] u w end)
    end.
Proof.
  intros H HL. destruct (iat_col _ _ _ _ H) as (j & u & _ & Hu & Ho). destruct (touch_bounds n Lp Li CP o u Hu Ho) as (B1 & B2 & B3).
  destruct H as (_ & _ & Hq). unfold ithread_step, rd at 1. rewrite Hq. cbn [bind]. destruct pc as [|a|a b]; cbn [op_step].
  - rewrite rd_ok by lia. reflexivity.
  - rewrite rd_ok by lia. reflexivity.
  - destruct o; cbn [tgt] in *; [rewrite wr_ok by lia|rewrite wr_ok by lia|rewrite rd_ok by lia; cbn [bind]; rewrite wr_ok by lia]; reflexivity.
Qed.

Lemma ths_level l (ths : list (ist V)) t : l <= length P -> length ths = length OP.[l] -> t < length ths -> l < length P /\ t < length P.[l].
Proof.
  intros Hl HL Ht. destruct (Nat.eq_dec l (length P)) as [->|].
  - exfalso. unfold aget in HL. rewrite nth_overflow in HL by (rewrite OP_len; lia). simpl in HL. lia.
  - rewrite OP_lev in HL by lia. lia.
Qed.

Lemma step_IInv s s' : IInv s -> i_step fms quo root OP s s' -> IInv s'.
Proof.
  intros HI Hs. inversion Hs as [l ths x t th th' x' Hl Hth Hnd Hst|l ths x Hl Hd]; subst; clear Hs.
  - destruct HI as (I1 & I2 & (h & Eh & ND & HK & HO) & I4). rewrite OP_len in Hl.
    assert (Ht : t < length ths) by (apply nth_error_Some; congruence). pose proof (aget_nth_error _ _ _ Hth) as Eth. clear Hth.
    assert (HtP : t < length P.[l]) by (rewrite OP_lev in I2 by auto; lia).
    destruct th as [q pc]. pose proof (I4 t Ht) as HR. rewrite Eth in HR. destruct HR as (HQ & HR). cbn [fst snd] in HQ, HR.
    unfold ithread_done in Hnd. cbn [fst] in Hnd.
    assert (exists o, nth_error OP.[l].[t] q = Some o) as (o & Eo).
    { destruct (nth_error OP.[l].[t] q) eqn:E; eauto. apply nth_error_None in E. lia. }
    assert (HA : iat l t q o) by (unfold iat; auto).
    assert (HLx : length x = length x0) by (rewrite Eh; apply run_length).
    rewrite (tstep l t q pc o x HA HLx) in Hst.
    assert (Same : forall pc', th' = (q, pc') -> x' = x -> regs_ok x OP.[l].[t] (q, pc') -> IInv (l, upd ths t th', x')).
    { intros pc' -> -> HR'. unfold IInv. rewrite upd_length. splits; auto.
      - exists h. splits; auto. intros o1. rewrite HK. unfold executed.
        split; intros (l1 & t1 & q1 & A1 & A2); exists l1, t1, q1; split; auto; destruct A2 as [|(-> & A2)]; auto; right; split; auto.
        + rewrite aget_upd by auto. destruct (Nat.eqb_spec t1 t) as [->|]; auto. rewrite Eth in A2. exact A2.
        + rewrite aget_upd in A2 by auto. destruct (Nat.eqb_spec t1 t) as [->|]; auto. rewrite Eth. exact A2.
      - intros t1 Ht1. rewrite aget_upd by auto. destruct (Nat.eqb_spec t1 t) as [->|]; auto. }
    destruct pc as [|a|a b]; injection Hst as <- <-.
    + apply (Same (IOne x.[src1 o])); auto. split; cbn [fst snd]; eauto.
    + apply (Same (ITwo a x.[src2 o])); auto. destruct HR as (o1 & E1 & ->). assert (o1 = o) as -> by congruence. split; cbn [fst snd]; eauto.
    + destruct HR as (o1 & E1 & -> & ->). assert (o1 = o) as -> by congruence. clear Same.
      set (x' := upd x (tgt o) _).
      assert (Ex : x' = do_op fms quo root x o). { unfold x', do_op. f_equal. destruct o; reflexivity. }
      assert (HN : ~ In o h). { intros Hin. apply HK in Hin. destruct Hin as (l1 & t1 & q1 & A1 & A2). destruct (iat_unique _ _ _ _ _ _ _ A1 HA) as (-> & -> & ->).
        rewrite Eth in A2. cbn [fst] in A2. lia. }
      unfold IInv. rewrite upd_length. splits; auto.
      * exists (h ++ [o]). splits.
        -- rewrite run_app, <- Eh. exact Ex.
        -- apply nodup_app; auto; [constructor; [intros []|constructor]|]. intros z Hz [<-|[]]. auto.
        -- intros o1. rewrite in_app_iff, HK. unfold executed. split.
           ++ intros [(l1 & t1 & q1 & A1 & A2)|[<-|[]]].
              ** exists l1, t1, q1. split; auto. destruct A2 as [|(-> & A2)]; auto. right. split; auto. rewrite aget_upd by auto.
                 destruct (Nat.eqb_spec t1 t) as [->|]; auto. rewrite Eth in A2. cbn [fst] in *. lia.
              ** exists l, t, q. split; auto. right. split; auto. rewrite aget_upd_eq by auto. cbn [fst]. lia.
           ++ intros (l1 & t1 & q1 & A1 & A2). destruct A2 as [A2|(-> & A2)]; [left; exists l1, t1, q1; auto|].
              rewrite aget_upd in A2 by auto. destruct (Nat.eqb_spec t1 t) as [->|]; [|left; exists l, t1, q1; auto]. cbn [fst] in A2.
              destruct (Nat.eq_dec q1 q) as [->|]; [right; left|left; exists l, t, q1; split; auto; right; split; auto; rewrite Eth; cbn [fst]; lia].
              destruct A1 as (_ & _ & A1). congruence.
        -- intros o1 o2 Hb HM. assert (BC : before o1 o2 h \/ (In o1 h /\ o2 = o)).
           { destruct Hb as (a & b & c & E). destruct (exists_last (l := o2 :: c)) as (c' & z & Ec); [discriminate|].
             rewrite Ec in E. replace (a ++ o1 :: b ++ c' ++ [z]) with ((a ++ o1 :: b ++ c') ++ [z]) in E by (rewrite <- app_assoc; simpl; now rewrite <- app_assoc).
             apply app_inj_tail in E. destruct E as (-> & ->). destruct c' as [|z' c''].
             - right. simpl in Ec. split; [apply in_app_iff; right; now left|congruence].
             - left. simpl in Ec. injection Ec as <- _. exists a, b, c''. reflexivity. }
           destruct BC as [BC|(Hin & ->)]; [apply (HO o1 o2); auto|]. apply HK in Hin. destruct Hin as (l1 & t1 & q1 & A1 & A2).
           destruct (iat_must _ _ _ _ _ _ _ _ HM HA A1) as [?|(-> & -> & ?)]; destruct A2 as [?|(? & A2)]; try lia. rewrite Eth in A2. cbn [fst] in A2. lia.
      * intros t1 Ht1. rewrite aget_upd by auto. destruct (Nat.eqb_spec t1 t) as [->|Hne].
        -- split; cbn [fst snd]; auto. assert (q < length OP.[l].[t]) by (apply nth_error_Some; congruence). lia.
        -- pose proof (I4 t1 Ht1) as (R1 & R2). split; auto. destruct (snd ths.[t1]) as [|a|a b]; auto.
           ++ destruct R2 as (o2 & E2 & ->). exists o2. split; auto. assert (A2 : iat l t1 (fst ths.[t1]) o2).
              { unfold iat. splits; auto. rewrite OP_lev in I2 by auto. lia. }
              destruct (iat_apart _ _ _ _ _ _ _ (not_eq_sym Hne) HA A2) as (N1 & N2 & _). unfold x'. now rewrite aget_upd_ne by auto.
           ++ destruct R2 as (o2 & E2 & -> & ->). exists o2. split; auto. assert (A2 : iat l t1 (fst ths.[t1]) o2).
              { unfold iat. splits; auto. rewrite OP_lev in I2 by auto. lia. }
              destruct (iat_apart _ _ _ _ _ _ _ (not_eq_sym Hne) HA A2) as (N1 & N2 & _). unfold x'. now rewrite !aget_upd_ne by auto.
  - destruct HI as (I1 & I2 & (h & Eh & ND & HK & HO) & I4). rewrite OP_len in Hl. unfold IInv, ienter.
    rewrite repeat_length. splits; auto.
    + exists h. splits; auto. intros o. rewrite HK. unfold executed. split; intros (l1 & t1 & q1 & A1 & A2); exists l1, t1, q1; split; auto.
      * left. lia.
      * destruct A2 as [A2|(-> & A2)].
        -- destruct (Nat.eq_dec l1 l) as [->|]; [|left; lia]. right. split; auto. destruct A1 as (_ & B2 & B3).
           assert (Ht1 : t1 < length ths) by (rewrite OP_lev in I2 by auto; lia).
           pose proof (Hd t1 ths.[t1] (nth_error_aget _ _ Ht1)) as Hd1. unfold ithread_done in Hd1. rewrite Hd1. apply nth_error_Some. congruence.
        -- exfalso. destruct A1 as (B1 & B2 & B3). rewrite aget_repeat in A2 by (rewrite OP_lev by auto; lia). simpl in A2. lia.
    + intros t Ht. rewrite aget_repeat by auto. split; cbn [fst snd]; auto. lia.
Qed.

Lemma start_IInv : IInv (i_start OP x0).
Proof.
  unfold i_start, ienter, IInv. rewrite repeat_length. splits; auto; [lia| |].
  - exists []. splits; auto; [constructor| |intros o o' ([|? ?] & b & c & E); discriminate].
    intros o. split; [intros []|]. intros (l1 & t1 & q1 & A1 & A2). exfalso. destruct A2 as [A2|(-> & A2)]; [lia|].
    destruct A1 as (B1 & B2 & _). rewrite aget_repeat in A2 by (rewrite OP_lev by auto; lia). simpl in A2. lia.
  - intros t Ht. rewrite aget_repeat by auto. split; cbn [fst snd]; auto. lia.
Qed.

Lemma steps_IInv s s' : IInv s -> i_steps fms quo root OP s s' -> IInv s'.
Proof. intros HI Hs. induction Hs as [|s s' s'' Hs IH Hst]; auto. apply (step_IInv s' s''); auto. Qed.

Lemma inv_step_ok l ths x t th : IInv (l, ths, x) -> nth_error ths t = Some th -> l < length P -> ~ ithread_done OP.[l].[t] th ->
  exists o, iat l t (fst th) o /\ length x = length x0.
Proof.
  intros (I1 & I2 & (h & Eh & _) & I4) Hth Hl Hnd. assert (Ht : t < length ths) by (apply nth_error_Some; congruence).
  pose proof (aget_nth_error _ _ _ Hth) as Eth. pose proof (I4 t Ht) as (HQ & _). rewrite Eth in HQ. unfold ithread_done in Hnd.
  destruct (nth_error OP.[l].[t] (fst th)) as [o|] eqn:E; [|apply nth_error_None in E; lia].
  exists o. split; [|rewrite Eh; apply run_length]. unfold iat. splits; auto. rewrite OP_lev in I2 by auto. lia.
Qed.

Lemma IInv_not_bad s : IInv s -> ~ i_bad fms quo root OP s.
Proof.
  destruct s as [[l ths] x]. intros HI (Hl & t & th & e & Hth & Hnd & HE). rewrite OP_len in Hl.
  destruct (inv_step_ok l ths x t th HI Hth Hl Hnd) as (o & HA & HLx). destruct th as [q pc]. rewrite (tstep l t q pc o x HA HLx) in HE. discriminate.
Qed.

Lemma IInv_progress s : IInv s -> i_final OP s \/ exists s', i_step fms quo root OP s s'.
Proof.
  destruct s as [[l ths] x]. intros HI. pose proof HI as (I1 & I2 & I3 & I4). unfold i_final. cbn [fst]. rewrite OP_len.
  destruct (Nat.eq_dec l (length P)) as [|Hne]; auto. right.
  destruct (forallb (fun t => fst ths.[t] =? length OP.[l].[t]) (seq 0 (length ths))) eqn:EF.
  - eexists. apply is_barrier; [rewrite OP_len; lia|]. intros t th Hth. rewrite forallb_forall in EF.
    assert (Ht : t < length ths) by (apply nth_error_Some; congruence). specialize (EF t). rewrite in_seq in EF. specialize (EF ltac:(lia)).
    apply aget_nth_error in Hth. rewrite Hth in EF. unfold ithread_done. lia.
  - assert (exists t, t < length ths /\ fst ths.[t] <> length OP.[l].[t]) as (t & Ht & Hnd).
    { assert (G : forall m, forallb (fun t => fst ths.[t] =? length OP.[l].[t]) m = false -> exists t, In t m /\ fst ths.[t] <> length OP.[l].[t]).
      { induction m as [|a m IH]; simpl; [discriminate|]. destruct (Nat.eqb_spec (fst ths.[a]) (length OP.[l].[a])) as [|Hn]; [|exists a; auto].
        simpl. intros E. destruct (IH E) as (t & ? & ?). exists t. auto. }
      destruct (G _ EF) as (t & Hin & ?). apply in_seq in Hin. exists t. split; auto; lia. }
    destruct (inv_step_ok l ths x t ths.[t] HI (nth_error_aget _ _ Ht) ltac:(lia) Hnd) as (o & HA & HLx).
    destruct (ithread_step fms quo root OP.[l].[t] ths.[t] x) as [[th' x']|e] eqn:ES.
    + eexists. eapply is_thread with (t := t); [rewrite OP_len; lia|now apply nth_error_aget|exact Hnd|exact ES].
    + exfalso. destruct ths.[t] as [q pc]. cbn [fst] in HA. rewrite (tstep l t q pc o x HA HLx) in ES. discriminate.
Qed.

Lemma IInv_no_race s : IInv s -> ~ i_race OP s.
Proof.
  destruct s as [[l ths] x]. intros (I1 & I2 & I3 & I4) (t & t' & th & th' & a & a' & c & Hne & E1 & E2 & A1 & A2 & HC).
  assert (H1 : t < length ths) by (apply nth_error_Some; congruence).
  assert (H2 : t' < length ths) by (apply nth_error_Some; congruence).
  destruct (ths_level l ths t I1 I2 H1) as (Hl & Ht). destruct (ths_level l ths t' I1 I2 H2) as (_ & Ht').
  unfold inext in A1, A2. destruct (nth_error OP.[l].[t] (fst th)) as [o|] eqn:Eo; [|discriminate].
  destruct (nth_error OP.[l].[t'] (fst th')) as [o'|] eqn:Eo'; [|discriminate].
  destruct (iat_apart l t (fst th) o t' (fst th') o') as (N1 & N2 & N3); auto; try (unfold iat; auto; fail).
  destruct (iat_apart l t' (fst th') o' t (fst th) o) as (M1 & M2 & _); auto; try (unfold iat; auto; fail).
  destruct (snd th), (snd th'); injection A1 as <- <-; injection A2 as <- E; simpl in HC; try congruence; try tauto.
  destruct N3 as [(U & U')|N3]; [|congruence]. destruct o, o'; simpl in *; try discriminate; tauto.
Qed.

(** * Termination *)
Definition irem (T : list icop) (th : ist V) : nat :=
  3 * (length T - fst th) - match snd th with IStart => 0 | IOne _ => 1 | ITwo _ _ => 2 end.

Lemma IInv_terminates s : IInv s -> Acc (fun s' s => i_step fms quo root OP s s') s.
Proof.
  assert (G : forall a c l ths x, length P - l <= a -> sum_r 0 (length ths) (fun t => irem OP.[l].[t] ths.[t]) <= c ->
     IInv (l, ths, x) -> Acc (fun s' s => i_step fms quo root OP s s') (l, ths, x)).
  { induction a as [a IHa] using lt_wf_ind. induction c as [c IHc] using lt_wf_ind. intros l ths x Ha Hc HI.
    constructor. intros s' Hs. pose proof (step_IInv _ _ HI Hs) as HI'.
    inversion Hs as [l0 ths0 x1 t th th' x' Hl Hth Hnd Hst|l0 ths0 x1 Hl Hd]; subst.
    - rewrite OP_len in Hl. destruct (inv_step_ok l ths x t th HI Hth Hl Hnd) as (o & HA & HLx).
      assert (Ht : t < length ths) by (apply nth_error_Some; congruence).
      pose proof (aget_nth_error _ _ _ Hth) as Eth. destruct th as [q pc]. cbn [fst] in HA. rewrite (tstep l t q pc o x HA HLx) in Hst.
      assert (Hq : q < length OP.[l].[t]) by (apply nth_error_Some; destruct HA as (_ & _ & ->); discriminate).
      assert (Hdec : irem OP.[l].[t] th' < irem OP.[l].[t] (q, pc)).
      { destruct pc; injection Hst as <- <-; unfold irem; cbn [fst snd]; lia. }
      assert (Hsum : sum_r 0 (length (upd ths t th')) (fun s => irem OP.[l].[s] (upd ths t th').[s]) + irem OP.[l].[t] (q, pc)
                   = sum_r 0 (length ths) (fun s => irem OP.[l].[s] ths.[s]) + irem OP.[l].[t] th').
      { rewrite upd_length. rewrite (sum_r_split 0 t), (sum_r_first t) by lia.
        rewrite (sum_r_split 0 t (length ths) (fun s => irem OP.[l].[s] ths.[s])), (sum_r_first t _ (fun s => irem OP.[l].[s] ths.[s])) by lia.
        rewrite aget_upd_eq by auto. rewrite Eth.
        rewrite (sum_r_ext 0 t (fun s => irem OP.[l].[s] (upd ths t th').[s]) (fun s => irem OP.[l].[s] ths.[s])).
        2:{ intros i Hi. now rewrite aget_upd_ne by lia. }
        rewrite (sum_r_ext (S t) (length ths) (fun s => irem OP.[l].[s] (upd ths t th').[s]) (fun s => irem OP.[l].[s] ths.[s])).
        2:{ intros i Hi. now rewrite aget_upd_ne by lia. }
        lia. }
      eapply (IHc (sum_r 0 (length (upd ths t th')) (fun s => irem OP.[l].[s] (upd ths t th').[s]))); auto; lia.
    - rewrite OP_len in Hl. eapply (IHa (length P - S l)); [lia|lia|apply Nat.le_refl|auto]. }
  destruct s as [[l ths] x]. intros HI. eapply G; [apply Nat.le_refl|apply Nat.le_refl|auto].
Qed.

Lemma no_infinite : ~ exists f, f 0 = i_start OP x0 /\ forall i, i_step fms quo root OP (f i) (f (S i)).
Proof.
  assert (G : forall s, Acc (fun s' s => i_step fms quo root OP s s') s -> ~ exists f, f 0 = s /\ forall i, i_step fms quo root OP (f i) (f (S i))).
  { intros s HT. induction HT as [s _ IH]. intros (f & H0 & Hf). apply (IH (f 1)).
    - rewrite <- H0. apply Hf.
    - exists (fun i => f (S i)). split; auto. }
  apply G, IInv_terminates, start_IInv.
Qed.

Lemma exec_exists : exists x', i_exec fms quo root OP x0 x'.
Proof.
  assert (G : forall s, Acc (fun s' s => i_step fms quo root OP s s') s -> IInv s -> i_steps fms quo root OP (i_start OP x0) s -> exists x', i_exec fms quo root OP x0 x').
  { intros s HT. induction HT as [s _ IH]. intros HI Hs. destruct (IInv_progress s HI) as [HF|(s' & Hs')].
    - destruct s as [[l ths] x]. exists x, l, ths. split; auto.
    - apply (IH s'); auto; [exact (step_IInv s s' HI Hs')|eapply iss_step; eauto]. }
  apply (G (i_start OP x0)); [apply IInv_terminates|..]; try apply start_IInv. constructor.
Qed.

Lemma exec_ichol x' : i_exec fms quo root OP x0 x' -> ichol fms quo root any_order n Lp Li x0 x'.
Proof.
  intros (l & ths & Hs & ->). pose proof (steps_IInv _ _ start_IInv Hs) as (I1 & I2 & (h & -> & ND & HK & HO) & _).
  apply good_ichol; auto; [|intros; exact I]. unfold good. splits; auto. intros o. rewrite HK. split.
  - intros (l1 & t1 & q1 & A1 & _). destruct (iat_col _ _ _ _ A1) as (j & u & _ & Hu & Ho). exists u. auto.
  - intros (u & Hu & Ho). destruct (iat_complete u o Hu Ho) as (l1 & t1 & q1 & A1). exists l1, t1, q1. split; auto. left. rewrite OP_len. apply A1.
Qed.

End Mach.
