(** C156: the machine of the row-wise incomplete Cholesky kernels with a single thread is the serial kernel, on rows in any order. *)
From Coq Require Import ZifyBool ZifyNat.
From Verif Require Import Base Lib Lib2 Spec SpecSolve Check CheckS M_SpTRSV M_IC0Row L_SpTRSV L_SpTRSV2 L_IC0 L_IC0Row P_IC0 P_IC0Row.
From Verif Require M_IC0.

Section S.
Context {V : Type} {DV : Dflt V}.
Variables (fms : V -> V -> V -> V) (quo : V -> V -> V) (root : V -> V).

(** one operation, and a list of them, on the whole array *)
Definition app_op (o : rop) (y : list V) : list V := upd y (rtgt o) (rval fms quo root o (map (aget y) (rsrc o))).
Definition app_ops (ops : list rop) (y : list V) : list V := fold_left (fun y o => app_op o y) ops y.
Definition op_in (k : nat) (o : rop) : Prop := rtgt o < k /\ forall c, In c (rsrc o) -> c < k.

Lemma app_ops_length ops : forall y, length (app_ops ops y) = length y.
Proof. induction ops as [|o ops IH]; intros y; [reflexivity|]. cbn. unfold app_ops in IH. rewrite IH. unfold app_op. apply upd_length. Qed.
Lemma app_ops_app a b y : app_ops (a ++ b) y = app_ops b (app_ops a y).
Proof. apply fold_left_app. Qed.

Section One.
Variables (ops : list rop) (x : list V).
Hypothesis HO : Forall (op_in (length x)) ops.
Let P : rprog := [[ops]].

Definition one_inv (s : rstate V) : Prop :=
  (exists q vs y, s = (0, [(q, vs)], y) /\ q <= length ops /\ y = app_ops (firstn q ops) x /\ (q = length ops -> vs = []) /\
     (forall o, nth_error ops q = Some o -> vs = map (aget y) (firstn (length vs) (rsrc o)))) \/
  (exists y, s = (1, [], y) /\ y = app_ops ops x).

Lemma op_at q : q < length ops -> exists o, nth_error ops q = Some o /\ ops.[q] = o /\ op_in (length x) o.
Proof.
  intros H. destruct (nth_error ops q) as [o|] eqn:E; [|apply nth_error_None in E; lia]. exists o. splits; auto.
  - unfold aget. now apply nth_error_nth.
  - rewrite Forall_forall in HO. apply HO. eapply nth_error_In; eauto.
Qed.

Lemma one_step q vs y : q < length ops -> y = app_ops (firstn q ops) x -> (forall o, nth_error ops q = Some o -> vs = map (aget y) (firstn (length vs) (rsrc o))) ->
  exists q' vs' y', rthread_step fms quo root ops (q, vs) y = Ok ((q', vs'), y') /\ q' <= length ops /\ y' = app_ops (firstn q' ops) x /\ (q' = length ops -> vs' = []) /\
    (forall o, nth_error ops q' = Some o -> vs' = map (aget y') (firstn (length vs') (rsrc o))) /\ (q' = S q \/ q' = q).
Proof.
  intros Hq Hy Hv. destruct (op_at q Hq) as (o & E & Eo & (T1 & T2)). specialize (Hv o E). unfold rthread_step. rewrite rd_ok by lia. cbn [bind]. rewrite Eo.
  assert (Ly : length y = length x) by (rewrite Hy; apply app_ops_length).
  destruct (nth_error (rsrc o) (length vs)) as [c|] eqn:Ec.
  - pose proof (T2 c (nth_error_In _ _ Ec)) as Tc. rewrite rd_ok by lia. cbn [bind]. exists q, (vs ++ [y.[c]]), y. splits; auto; try lia.
    intros o' E'. assert (o' = o) by congruence. subst o'. rewrite app_length. cbn [length]. 
    assert (length vs < length (rsrc o)) by (apply nth_error_Some; congruence).
    rewrite Nat.add_1_r. assert (X : firstn (S (length vs)) (rsrc o) = firstn (length vs) (rsrc o) ++ [c]).
    { clear - Ec. revert Ec. generalize (rsrc o) as l, (length vs) as k. intros l; induction l as [|a l IH]; intros [|k] H; try discriminate; [cbn in *; congruence|]. cbn [firstn app]. f_equal. apply IH. exact H. }
    rewrite X, map_app. cbn [map]. now rewrite <- Hv.
  - apply nth_error_None in Ec. assert (F : firstn (length vs) (rsrc o) = rsrc o) by (apply firstn_all2; lia).
    rewrite wr_ok by lia. cbn [bind]. exists (S q), [], (upd y (rtgt o) (rval fms quo root o vs)). splits; auto; try lia.
    + rewrite Hv, F, Hy. assert (X : firstn (S q) ops = firstn q ops ++ [o]).
      { clear - E. revert E. revert q. induction ops as [|a l IH]; intros [|k] H; try discriminate; [cbn in *; congruence|]. cbn [firstn app]. f_equal. apply IH. exact H. }
      rewrite X, app_ops_app. reflexivity.
Qed.

Lemma one_inv_step s s' : one_inv s -> r_step fms quo root P s s' -> one_inv s'.
Proof.
  intros [(q & vs & y & -> & Hq & Hy & Hf & Hv)|(y & -> & Hy)] H; inversion H as [l ths x0 t th th' x' Hl Ht Hd Hs|l ths x0 Hl Hd]; subst.
  - destruct t as [|t]; [|destruct t; discriminate]. injection Ht as <-. cbn in Hs, Hd. unfold rthread_done in Hd. cbn in Hd.
    destruct (one_step q vs (app_ops (firstn q ops) x) ltac:(lia) eq_refl Hv) as (q' & vs' & y' & E & A1 & A2 & A3 & A4 & _).
    cbn in E. rewrite E in Hs. injection Hs as <- <-. left. exists q', vs', y'. splits; auto.
  - right. eexists. split; [reflexivity|]. specialize (Hd 0 (q, vs) eq_refl). unfold rthread_done in Hd. cbn in Hd. subst q. now rewrite firstn_all.
  - cbn in Hl. lia.
  - cbn in Hl. lia.
Qed.

Lemma one_exec x' : r_exec fms quo root P x x' <-> x' = app_ops ops x.
Proof.
  assert (I0 : one_inv (r_start P x)).
  { left. exists 0, [], x. splits; [reflexivity|lia|reflexivity|reflexivity|reflexivity]. }
  split.
  - intros (l & ths & Hs & El). assert (G : forall s s', r_steps fms quo root P s s' -> one_inv s -> one_inv s').
    { intros s s' X. induction X; auto. intros Y. exact (one_inv_step _ _ (IHX Y) H). }
    specialize (G _ _ Hs I0). destruct G as [(q & vs & y & [= -> _ _] & _)|(y & [= -> -> ->] & Hy)]; [cbn in El; lia|exact Hy].
  - intros ->. assert (TR : forall s s' s'', r_steps fms quo root P s s' -> r_steps fms quo root P s' s'' -> r_steps fms quo root P s s'').
    { intros s s' s'' X Y. induction Y; auto. econstructor; [apply IHY; exact X|exact H]. }
    assert (G : forall m q vs y, 4 * (length ops - q) + 4 <= m + length vs -> q <= length ops -> length vs <= 3 -> y = app_ops (firstn q ops) x -> (q = length ops -> vs = []) ->
        (forall o, nth_error ops q = Some o -> vs = map (aget y) (firstn (length vs) (rsrc o))) ->
        r_steps fms quo root P (0, [(q, vs)], y) (1, [], app_ops ops x)).
    { induction m as [|m IH]; intros q vs y Hm Hq Hl Hy Hf Hv.
      - destruct (Nat.eq_dec q (length ops)); [|lia]. specialize (Hf e). subst vs. cbn in Hm. lia.
      - destruct (Nat.eq_dec q (length ops)) as [E|N].
        + specialize (Hf E). subst. rewrite firstn_all. econstructor; [constructor|]. change (@nil (rst V)) with (renter (V := V) P 1). apply rs_barrier; [cbn; lia|].
          intros [|t] th Hth; [injection Hth as <-; reflexivity|destruct t; discriminate].
        + destruct (op_at q ltac:(lia)) as (o & Eo & Ea & _). assert (Lr : length (rsrc o) <= 3) by (destruct o; cbn; lia).
          destruct (one_step q vs y ltac:(lia) Hy Hv) as (q' & vs' & y' & E & A1 & A2 & A3 & A4 & A5).
          eapply TR; [econstructor; [constructor|]; eapply (rs_thread _ _ _ P 0 [(q, vs)] y 0 (q, vs)); [cbn; lia|reflexivity|unfold rthread_done; cbn; lia|exact E]|].
          cbn [upd]. assert (M : (q' = S q /\ vs' = []) \/ (q' = q /\ length vs' = S (length vs) /\ length vs' <= 3)).
          { unfold rthread_step in E. rewrite rd_ok in E by lia. cbn [bind] in E. rewrite Ea in E. destruct (nth_error (rsrc o) (length vs)) eqn:En.
            - assert (length vs < length (rsrc o)) by (apply nth_error_Some; congruence). destruct (rd y n); [|discriminate]. cbn in E. injection E as <- <- <-. right. rewrite app_length. cbn. lia.
            - destruct (wr _ _ _); [|discriminate]. cbn in E. injection E as <- <- <-. auto. }
          apply IH; auto; destruct M as [(-> & ->)|(-> & M1 & M2)]; cbn [length]; lia. }
    exists 1, []. split; [|reflexivity]. apply (G (4 * length ops + 4) 0 [] x); cbn; try lia; auto.
Qed.
End One.

Variables (n : nat) (Lp Li : list nat).
Hypothesis WF : wf_csc n Lp Li.
Hypothesis NE : forall i, i < n -> Lp.[i] < Lp.[S i].

Definition ops_of (i : nat) : list rop := RRoot (Lp.[S i] - 1) :: map (fun m => RDiv m (Lp.[S i] - 1)) (seq Lp.[i] (Lp.[S i] - 1 - Lp.[i])) ++ updates Lp Li i.

Lemma row_is_ops i x : i < n -> Lp.[n] <= length x -> M_IC0.spic0_csr_row fms quo root Lp Li i x = Ok (app_ops (ops_of i) x).
Proof.
  intros Hi HX. pose proof (NE i Hi) as B1. destruct WF as (W1 & W2 & W3 & W4 & W5).
  assert (MO : forall i j, i <= j -> j <= n -> Lp.[i] <= Lp.[j]) by (intros; apply (mono_le (aget Lp) n); auto; lia).
  pose proof (MO (S i) n ltac:(lia) ltac:(lia)) as B2.
  enough (G : wp (M_IC0.spic0_csr_row fms quo root Lp Li i x) (fun y => y = app_ops (ops_of i) x)).
  { apply wp_ok in G. destruct G as (y & E & ->). exact E. }
  unfold M_IC0.spic0_csr_row. apply wp_bind. apply wp_rd; [lia|]. replace (Lp.[S i] =? 0) with false by lia.
  apply wp_bind. apply wp_rd; [lia|]. apply wp_bind. apply wp_wr; [lia|]. apply wp_bind. apply wp_rd; [lia|]. unfold ops_of, updates. cbv zeta.
  set (e := Lp.[S i] - 1) in *. change (upd x e (root x.[e])) with (app_ops [RRoot e] x). apply wp_bind.
  change (RRoot e :: map (fun m => RDiv m e) (seq Lp.[i] (e - Lp.[i])) ++ ?u) with ([RRoot e] ++ map (fun m => RDiv m e) (seq Lp.[i] (e - Lp.[i])) ++ u).
  assert (DS : forall m, Lp.[i] <= m -> map (fun m => RDiv m e) (seq Lp.[i] (S m - Lp.[i])) = map (fun m => RDiv m e) (seq Lp.[i] (m - Lp.[i])) ++ [RDiv m e]).
  { intros m Hm. replace (S m - Lp.[i]) with ((m - Lp.[i]) + 1) by lia. rewrite seq_app, map_app. cbn [seq map]. do 3 f_equal. lia. }
  apply (wp_for (fun m y => y = app_ops ([RRoot e] ++ map (fun m => RDiv m e) (seq Lp.[i] (m - Lp.[i]))) x)); [lia|rewrite Nat.sub_diag; reflexivity| |].
  { intros m y Hm ->. set (y := app_ops _ _). assert (length y = length x) by apply app_ops_length. apply wp_bind. apply wp_rd; [lia|]. apply wp_bind. apply wp_rd; [lia|]. apply wp_wr; [lia|].
    rewrite DS by lia. rewrite app_assoc, app_ops_app. reflexivity. }
  intros y0 ->. set (pre := [RRoot e] ++ _). rewrite app_assoc. fold pre.
  set (F3 := fun m k l => if (Li.[l] =? Li.[k]) && (Li.[S l] <=? Li.[k]) then [RUpd k m l] else []).
  assert (E3 : forall m k a c, map (fun l => RUpd k m l) (filter (fun l => (Li.[l] =? Li.[k]) && (Li.[S l] <=? Li.[k])) (seq a c)) = flat_map (F3 m k) (seq a c)).
  { intros m k a c. revert a. induction c as [|c IH]; intros a; [reflexivity|]. cbn [seq filter flat_map]. unfold F3 at 1. destruct (_ && _); cbn [map]; rewrite IH; reflexivity. }
  set (F2 := fun m k => flat_map (F3 m k) (seq m (e - m))).
  set (F1 := fun m => flat_map (F2 m) (seq Lp.[Li.[m]] (Lp.[S Li.[m]] - Lp.[Li.[m]]))).
  apply (wp_for (fun m y => y = app_ops (pre ++ flat_map F1 (seq Lp.[i] (m - Lp.[i]))) x)); [lia|rewrite Nat.sub_diag; cbn [seq flat_map]; now rewrite app_nil_r| |].
  - intros m z' Hm ->. assert (Hc : Li.[m] < n) by (apply W5; lia). apply wp_bind. apply wp_rd; [lia|]. apply wp_bind. apply wp_rd; [lia|]. apply wp_bind. apply wp_rd; [lia|].
    pose proof (MO (S Li.[m]) n ltac:(lia) ltac:(lia)) as D2. pose proof (MO Li.[m] (S Li.[m]) ltac:(lia) ltac:(lia)) as D1.
    rewrite flat_step by lia. rewrite app_assoc. set (base := pre ++ _). unfold F1. set (c := Li.[m]) in *.
    apply (wp_for (fun k z' => z' = app_ops (base ++ flat_map (F2 m) (seq Lp.[c] (k - Lp.[c]))) x)); [lia|rewrite Nat.sub_diag; cbn [seq flat_map]; now rewrite app_nil_r| |].
    + intros k z' Hk ->. rewrite flat_step by lia. rewrite (app_assoc base). set (base2 := base ++ _). unfold F2.
      apply (wp_for (fun l z' => z' = app_ops (base2 ++ flat_map (F3 m k) (seq m (l - m))) x)); [lia|rewrite Nat.sub_diag; cbn [seq flat_map]; now rewrite app_nil_r| |].
      * intros l z' Hl ->. apply wp_bind. apply wp_rd; [lia|]. apply wp_bind. apply wp_rd; [lia|]. rewrite flat_step by lia. rewrite (app_assoc base2). set (base3 := base2 ++ _). unfold F3.
        destruct (Nat.eqb_spec Li.[l] Li.[k]) as [E|]; cbn [andb]; [|apply wp_ret; now rewrite app_nil_r]. apply wp_bind. apply wp_rd; [lia|].
        destruct (Li.[S l] <=? Li.[k]); [|apply wp_ret; now rewrite app_nil_r]. rewrite app_ops_app. set (z := app_ops base3 x). assert (length z = length x) by apply app_ops_length.
        apply wp_bind. apply wp_rd; [lia|]. apply wp_bind. apply wp_rd; [lia|]. apply wp_bind. apply wp_rd; [lia|]. apply wp_wr; [lia|]. reflexivity.
      * intros z' ->. reflexivity.
    + intros z' ->. reflexivity.
  - intros y ->. do 2 f_equal. apply flat_map_ext. intros m. apply flat_map_ext. intros k. now rewrite E3.
Qed.

Lemma ops_in i (x : list V) : i < n -> Lp.[n] <= length x -> Forall (op_in (length x)) (ops_of i).
Proof.
  intros Hi HX. pose proof (NE i Hi) as B1. destruct WF as (W1 & W2 & W3 & W4 & W5).
  assert (MO : forall i j, i <= j -> j <= n -> Lp.[i] <= Lp.[j]) by (intros; apply (mono_le (aget Lp) n); auto; lia).
  pose proof (MO (S i) n ltac:(lia) ltac:(lia)) as B2. unfold ops_of. apply Forall_forall. intros o [<-|H].
  - split; cbn; [lia|]. intros c [<-|[]]. lia.
  - apply in_app_or in H. destruct H as [H|H].
    + apply in_map_iff in H. destruct H as (m & <- & Hm). apply in_seq in Hm. split; cbn; [lia|]. intros c [<-|[<-|[]]]; lia.
    + unfold updates in H. cbv zeta in H. apply in_flat_map in H. destruct H as (m & Hm & H). apply in_flat_map in H. destruct H as (k & Hk & H).
      apply in_map_iff in H. destruct H as (l & <- & Hl). apply filter_In in Hl. destruct Hl as (Hl & _). apply in_seq in Hm, Hk, Hl.
      assert (Hc : Li.[m] < n) by (apply W5; lia). pose proof (MO (S Li.[m]) n ltac:(lia) ltac:(lia)) as D2. split; cbn; [lia|]. intros c [<-|[<-|[<-|[]]]]; lia.
Qed.

Lemma serial_ops x : Lp.[n] <= length x -> M_IC0.spic0_csr fms quo root n Lp Li x = Ok (app_ops (flat_map ops_of (seq 0 n)) x).
Proof.
  intros HX. enough (G : wp (M_IC0.spic0_csr fms quo root n Lp Li x) (fun y => y = app_ops (flat_map ops_of (seq 0 n)) x)).
  { apply wp_ok in G. destruct G as (y & E & ->). exact E. }
  unfold M_IC0.spic0_csr. apply (wp_for (fun i y => y = app_ops (flat_map ops_of (seq 0 i)) x)); [lia|reflexivity| |auto].
  intros i y Hi ->. rewrite row_is_ops; [|lia|now rewrite app_ops_length]. apply wp_ret. rewrite seq_S, flat_map_app, app_ops_app. cbn [flat_map]. now rewrite app_nil_r.
Qed.

Lemma rows_serial T : (forall i, In i T -> i < n) -> rows_ops Lp Li T = Ok (flat_map ops_of T).
Proof.
  intros HT. unfold rows_ops. enough (G : forall acc, foreach T (fun i acc => o <- row_ops Lp Li i ;; Ok (acc ++ o)) acc = Ok (acc ++ flat_map ops_of T)) by apply (G []).
  induction T as [|a T IH]; intros acc; cbn [foreach flat_map]; [now rewrite app_nil_r|].
  assert (Ha : a < n) by (apply HT; now left). rewrite (proj1 (C156_row_operations n Lp Li a WF Ha) (NE a Ha)). cbn [bind]. rewrite IH by (intros; apply HT; now right). now rewrite <- app_assoc.
Qed.
End S.

(** The schedule with one level and one part that holds the rows in order (one thread): an execution of spic0_csr_lbc is complete with the
    array x' exactly if the serial kernel ends with x'; the order of the entries in the rows does not matter. *)
Theorem C156_one_thread :
  forall (V : Type) (DV : Dflt V) fms quo root n Lp Li (x : list V),
  wf_csc n Lp Li -> (forall i, i < n -> Lp.[i] < Lp.[S i]) -> Lp.[n] <= length x ->
  exists O, spic0_csr_lbc Lp Li 1 [0; 1] [0; n] (seq 0 n) = Ok O /\
    forall x', r_exec fms quo root O x x' <-> M_IC0.spic0_csr fms quo root n Lp Li x = Ok x'.
Proof.
  intros V DV fms quo root n Lp Li x WF NE HX. exists [[flat_map (ops_of Lp Li) (seq 0 n)]]. split.
  - assert (E : lbc_prog 1 [0; 1] [0; n] (seq 0 n) = Ok [[seq 0 n]]).
    { enough (G : wp (lbc_prog 1 [0; 1] [0; n] (seq 0 n)) (fun r => r = [[seq 0 n]])) by (apply wp_ok in G; destruct G as (r & E & ->); exact E).
      unfold lbc_prog, level_prog. repeat first [apply wp_bind | apply wp_rd; [cbn; lia|]]. change [0; n].[1] with n.
      apply (wp_for (fun k r => r = seq 0 k)); [lia|reflexivity| |].
      - intros k r Hk ->. apply wp_bind. apply wp_rd; [rewrite seq_length; lia|]. apply wp_ret. rewrite seq_S. do 2 f_equal. unfold aget. rewrite seq_nth by lia. reflexivity.
      - intros r ->. reflexivity. }
    unfold spic0_csr_lbc. rewrite E. cbn [bind]. unfold row_prog, rlevel_ops. cbn [foreach]. rewrite (rows_serial n Lp Li WF NE) by (intros i Hi; apply in_seq in Hi; lia). reflexivity.
  - intros x'. rewrite one_exec.
    + rewrite (serial_ops fms quo root n Lp Li WF NE x HX). split; [now intros ->|now intros [= ->]].
    + apply Forall_forall. intros o Ho. apply in_flat_map in Ho. destruct Ho as (i & Hi & Ho). apply in_seq in Hi.
      pose proof (ops_in fms quo root n Lp Li WF NE i x ltac:(lia) HX) as F. rewrite Forall_forall in F. auto.
Qed.
Print Assumptions C156_one_thread.

(** rows {0}, {0,1}, {1,0,2}: with integers, S3 subtracts from Lx[2] *)
Example C156_one_thread_case :
  wf_csc 3 [0;1;3;6] [0;0;1;1;0;2] /\
  spic0_csr_lbc [0;1;3;6] [0;0;1;1;0;2] 1 [0; 1] [0; 3] (seq 0 3) = Ok [[[RRoot 0; RRoot 2; RDiv 1 2; RRoot 5; RDiv 3 5; RDiv 4 5; RUpd 2 3 3]]] /\
  M_IC0.spic0_csr (fun a b c => (a - b * c)%Z) Z.div Z.sqrt 3 [0;1;3;6] [0;0;1;1;0;2] [4;6;9;8;2;4]%Z = Ok [2;2;-13;4;1;2]%Z.
Proof. split; [apply wf_cscb_ok; vm_compute; reflexivity|]. split; vm_compute; reflexivity. Qed.
