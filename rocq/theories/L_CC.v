(** Proofs about parallel_cc: invariant over all interleavings, termination. *)
From Verif Require Import Base Lib Spec M_CC.
From Coq Require Import ZifyBool ZifyNat.

Lemma upd_nth_error {A} (l : list A) i j v x :
  nth_error (upd l i v) j = Some x -> (i = j /\ x = v) \/ (i <> j /\ nth_error l j = Some x).
Proof.
  revert i j. induction l as [|h t IH]; intros i j H.
  - destruct j; discriminate.
  - destruct i as [|i], j as [|j]; simpl in *; auto.
    + inversion H; auto.
    + destruct (IH i j H) as [[? ?]|[? ?]]; auto.
Qed.

Lemma nth_error_lt {A} (l : list A) i x : nth_error l i = Some x -> i < length l.
Proof. intros H. apply nth_error_Some. congruence. Qed.

Lemma nth_error_repeat_inv {A} (x y : A) n i : nth_error (repeat x n) i = Some y -> y = x /\ i < n.
Proof.
  intros H. split.
  - apply nth_error_In in H. now apply repeat_spec in H.
  - apply nth_error_lt in H. now rewrite repeat_length in H.
Qed.

Lemma upd_nth_error_eq {A} (l : list A) i v : i < length l -> nth_error (upd l i v) i = Some v.
Proof. revert i; induction l as [|h t IH]; intros [|i] Hi; simpl in *; try lia; auto. apply IH. lia. Qed.

Lemma upd_nth_error_ne {A} (l : list A) i j v : i <> j -> nth_error (upd l i v) j = nth_error l j.
Proof. revert i j; induction l as [|h t IH]; intros [|i] [|j] Hij; simpl; auto; try lia. Qed.

(** sums over a list through a rank *)
Definition lsum {A} (f : A -> nat) (l : list A) : nat := list_sum (map f l).

Lemma lsum_upd {A} (f : A -> nat) (l : list A) i x v :
  nth_error l i = Some x -> lsum f (upd l i v) + f x = lsum f l + f v.
Proof.
  unfold lsum. revert i; induction l as [|h t IH]; intros [|i] H; simpl in *; try discriminate.
  - inversion H; subst. lia.
  - specialize (IH i H). lia.
Qed.

Section CCProof.
Variables (n : nat) (lC lR : list nat) (lb ub : nat) (n2l nodes : list nat).
Hypothesis W : wf_csc n lC lR.
Hypothesis ND : NoDup nodes.
Hypothesis NB : forall x, In x nodes -> x < n.
Hypothesis HL : n <= length n2l.
Hypothesis HW : forall v, v < n -> (In v nodes <-> lb <= n2l.[v] < ub).

Notation N := (length nodes).
Let E := edge n lC lR.
Let C := connected (edge_within E nodes).
Notation hstep := (hook_step lC lR lb ub n2l nodes).
Notation jstep := (jump_step nodes).
Notation step := (cc_step lC lR lb ub n2l nodes).

Definition p (m : list nat) (j : nat) : nat := m.[nodes.[j]].

Lemma nodes_lt j : j < N -> nodes.[j] < n.
Proof. intros. apply NB. now apply aget_In. Qed.

Lemma p_upd m j k x : n <= length m -> j < N -> k < N ->
  p (upd m nodes.[j] x) k = if k =? j then x else p m k.
Proof.
  intros Hm Hj Hk. unfold p. pose proof (nodes_lt j Hj). rewrite aget_upd by lia.
  destruct (Nat.eqb_spec nodes.[k] nodes.[j]) as [Eq|Nq], (Nat.eqb_spec k j) as [->|Nk]; auto.
  - elim Nk. apply (NoDup_aget nodes); auto.
  - congruence.
Qed.

Definition good (m : list nat) : Prop :=
  n <= length m /\ forall j, j < N -> p m j <= j /\ C nodes.[j] nodes.[p m j].
Definition star (m : list nat) : Prop := forall j, j < N -> p m (p m j) = p m j.
Definition edge_eq (m : list nat) : Prop :=
  forall u v, In u nodes -> In v nodes -> entry lC lR u v -> m.[u] = m.[v].

Lemma good_lt m j : good m -> j < N -> p m j < N.
Proof. intros [_ G] Hj. destruct (G j Hj). lia. Qed.

Lemma edge_conn u k : In u nodes -> lC.[u] <= k < lC.[S u] -> In lR.[k] nodes -> C u lR.[k].
Proof.
  intros Hu Hk Hv. destruct (Nat.eq_dec u lR.[k]) as [<-|Hn]; [constructor|].
  apply conn_edge. split; [|auto]. split; [auto|]. split; [exists k; auto|auto].
Qed.

(** ** Hook phase *)

Definition done_upto (m0 : list nat) (ch : bool) (u r : nat) : Prop :=
  ch = false -> forall k, lC.[u] <= k < r -> In lR.[k] nodes -> m0.[u] = m0.[lR.[k]].

Definition hpc_ok (m0 : list nat) (ch : bool) (i : nat) (pc : hpc) : Prop :=
  let u := nodes.[i] in
  match pc with
  | HStart => True
  | HLoadU r => lC.[u] <= r <= lC.[S u] /\ done_upto m0 ch u r
  | HLoadV r v cu => lC.[u] <= r < lC.[S u] /\ v = lR.[r] /\ In v nodes /\ cu < N /\
                     C u nodes.[cu] /\ done_upto m0 ch u r /\ (ch = false -> cu = m0.[u])
  | HLoadH r hi lo => lC.[u] <= r < lC.[S u] /\ lo < hi /\ hi < N /\ C nodes.[hi] nodes.[lo] /\
                      done_upto m0 ch u r /\ (ch = false -> p m0 hi = hi)
  | HStoreC r hi lo => lC.[u] <= r < lC.[S u] /\ lo < hi /\ hi < N /\ C nodes.[hi] nodes.[lo] /\ p m0 hi = hi
  | HStoreL r hi lo => lC.[u] <= r < lC.[S u] /\ lo < hi /\ hi < N /\ C nodes.[hi] nodes.[lo] /\
                       p m0 hi = hi /\ ch = true
  | HDone => done_upto m0 ch u lC.[S u]
  end.

Definition hook_rel (m0 m : list nat) : Prop :=
  forall j, j < N -> p m j = p m0 j \/ (p m0 j = j /\ p m j < j).

Definition frame (m0 m : list nat) : Prop :=
  length m = length m0 /\ forall x, ~ In x nodes -> m.[x] = m0.[x].

Lemma frame_refl m : frame m m. Proof. split; auto. Qed.
Lemma frame_trans a b c : frame a b -> frame b c -> frame a c.
Proof. intros [? H1] [? H2]. split; [congruence|]. intros x Hx. rewrite H2, H1; auto. Qed.
Lemma frame_upd m j x : j < N -> frame m (upd m nodes.[j] x).
Proof.
  intros Hj. split; [apply upd_length|]. intros y Hy. apply aget_upd_ne. intros <-.
  apply Hy. now apply aget_In.
Qed.

Definition HookInv (m0 : list nat) (pcs : list hpc) (ch : bool) (m : list nat) : Prop :=
  length pcs = N /\ good m0 /\ star m0 /\ good m /\ hook_rel m0 m /\ frame m0 m /\
  (ch = false -> m = m0) /\
  (forall i pc, nth_error pcs i = Some pc -> hpc_ok m0 ch i pc) /\
  (ch = true -> (exists j, j < N /\ p m j < p m0 j) \/
                (exists i r hi lo, nth_error pcs i = Some (HStoreL r hi lo))).

Definition hrank (i : nat) (pc : hpc) : nat :=
  let e := lC.[S nodes.[i]] in
  match pc with
  | HStart => 6 * S (e - lC.[nodes.[i]]) + 1
  | HLoadU r => 6 * S (e - r)
  | HLoadV r _ _ => 6 * S (e - r) - 1
  | HLoadH r _ _ => 6 * S (e - r) - 2
  | HStoreC r _ _ => 6 * S (e - r) - 3
  | HStoreL r _ _ => 6 * S (e - r) - 4
  | HDone => 0
  end.

Lemma hpc_ok_true m0 ch i pc : hpc_ok m0 ch i pc -> hpc_ok m0 true i pc.
Proof.
  destruct pc; simpl; unfold done_upto; intros H; auto; try (intuition discriminate).
  all: intuition; discriminate.
Qed.

Lemma good_hook m hi lo : good m -> lo < hi -> hi < N -> C nodes.[hi] nodes.[lo] ->
  good (upd m nodes.[hi] lo).
Proof.
  intros [G1 G2] Hlh Hhi HC. split; [now rewrite upd_length|].
  intros j Hj. rewrite p_upd by auto. destruct (Nat.eqb_spec j hi) as [->|]; [split; [lia|auto]|auto].
Qed.

Lemma hook_step_inv m0 pcs ch m i pc :
  HookInv m0 pcs ch m -> nth_error pcs i = Some pc -> pc <> HDone ->
  wp (hstep i pc m ch) (fun r => let '(pc', m', ch') := r in
     HookInv m0 (upd pcs i pc') ch' m' /\ hrank i pc' < hrank i pc).
Proof.
  intros (HLp & G0 & S0 & G & R & F & Hch & Hpc & Hex) Hi Hnd.
  pose proof (nth_error_lt _ _ _ Hi) as HiN. rewrite HLp in HiN.
  pose proof (nodes_lt i HiN) as Hun. set (u := nodes.[i]) in *.
  assert (Huin : In u nodes) by now apply aget_In.
  pose proof (wf_Lp_len n lC lR W) as HlC.
  pose proof (wf_Lp_mono n lC lR W u (S u) ltac:(lia) ltac:(lia)) as Hmono.
  pose proof G as [Gl Gj].
  (* reestablish the invariant when memory and change are untouched *)
  assert (Keep : forall pc', hpc_ok m0 ch i pc' -> (forall r hi lo, pc <> HStoreL r hi lo) ->
                 HookInv m0 (upd pcs i pc') ch m).
  { intros pc' Hok Hns. unfold HookInv. splits; auto.
    - now rewrite upd_length.
    - intros j q Hj. apply upd_nth_error in Hj. destruct Hj as [[<- ->]|[_ Hj]]; auto.
    - intros Ht. destruct (Hex Ht) as [?|(k & r & hi & lo & Hk)]; auto. right.
      exists k, r, hi, lo. rewrite upd_nth_error_ne; auto. intros <-.
      rewrite Hi in Hk. inversion Hk. eapply Hns; eauto. }
  specialize (Hpc i pc Hi) as Hok.
  destruct pc as [|r|r v cu|r hi lo|r hi lo|r hi lo|]; simpl in Hok |- *; fold u in Hok; fold u.
  - wp1. wp1; [lia|]. fold u. wp1. wp1; [lia|]. apply wp_ret. split; [|unfold hrank; fold u; lia].
    apply Keep; [|discriminate]. simpl. fold u. split; [lia|]. intros _ k Hk. lia.
  - destruct Hok as [Hr Hd]. wp1. wp1; [lia|]. fold u. wp1. wp1; [lia|].
    destruct (Nat.leb_spec lC.[S u] r) as [Hle|Hlt].
    + apply wp_ret. split; [|unfold hrank; fold u; lia]. apply Keep; [|discriminate]. simpl. fold u.
      now replace lC.[S u] with r by lia.
    + destruct (wf_col_lt n lC lR W u r Hun Hlt) as [Hr1 Hr2].
      pose proof (wf_Li_lt n lC lR W r Hr2) as Hv.
      wp1. wp1; [lia|]. wp1. wp1; [lia|].
      destruct ((n2l.[lR.[r]] <? lb) || (ub <=? n2l.[lR.[r]])) eqn:Ew.
      * apply wp_ret. split; [|unfold hrank; fold u; lia]. apply Keep; [|discriminate]. simpl. fold u. split; [lia|].
        intros Hc k Hk Hkin. destruct (Nat.eq_dec k r) as [->|]; [|apply Hd; auto; lia].
        apply HW in Hkin; auto. lia.
      * assert (Hin : In lR.[r] nodes) by (apply HW; auto; lia).
        wp1. wp1; [lia|]. apply wp_ret. split; [|unfold hrank; fold u; lia]. apply Keep; [|discriminate]. simpl. fold u.
        destruct (Gj i HiN) as [Hp1 Hp2]. unfold p in Hp1, Hp2. fold u in Hp1, Hp2.
        splits; auto; try lia. intros Hc. rewrite (Hch Hc). auto.
  - destruct Hok as (Hr & Ev & Hvin & Hcu & HCu & Hd & Hcu0).
    pose proof (NB v Hvin) as Hvn. wp1. wp1; [lia|].
    pose proof (In_aget nodes v Hvin) as [jv [Hjv Ejv]].
    destruct (Gj jv Hjv) as [Hq1 Hq2]. unfold p in Hq1, Hq2. rewrite Ejv in Hq1, Hq2.
    destruct (Nat.eqb_spec cu m.[v]) as [Ee|Ne].
    + apply wp_ret. split; [|unfold hrank; fold u; lia]. apply Keep; [|discriminate]. simpl. fold u. split; [lia|].
      intros Hc k Hk Hkin. destruct (Nat.eq_dec k r) as [->|]; [|apply Hd; auto; lia].
      rewrite <- (Hcu0 Hc), Ee, Ev. now rewrite (Hch Hc).
    + apply wp_ret. split; [|unfold hrank; fold u; lia]. apply Keep; [|discriminate]. simpl. fold u.
      assert (HCuv : C u v) by (rewrite Ev; apply edge_conn; auto; rewrite <- Ev; auto).
      assert (HCc : C nodes.[cu] nodes.[m.[v]]).
      { eapply conn_trans; [apply conn_sym; exact HCu|]. eapply conn_trans; [exact HCuv|exact Hq2]. }
      assert (Hmv : m.[v] < N) by (lia).
      destruct (Nat.ltb_spec m.[v] cu) as [Hlt|Hge].
      * replace (cu + m.[v] - cu) with m.[v] by lia. splits; auto; try lia.
        intros Hc. rewrite (Hcu0 Hc). apply (S0 i HiN).
      * replace (cu + m.[v] - m.[v]) with cu by lia. splits; auto; try lia.
        -- now apply conn_sym.
        -- intros Hc. rewrite (Hch Hc). rewrite <- Ejv. apply (S0 jv Hjv).
  - destruct Hok as (Hr & Hlh & Hhi & HCh & Hd & Hroot).
    pose proof (nodes_lt hi Hhi) as Hhn. wp1. wp1; [auto|]. wp1. wp1; [lia|].
    destruct (Nat.eqb_spec hi m.[nodes.[hi]]) as [Ee|Ne].
    + apply wp_ret. split; [|unfold hrank; fold u; lia]. apply Keep; [|discriminate]. simpl. fold u. splits; auto; try lia.
      destruct (R hi Hhi) as [Hx|[Hx _]]; auto. unfold p in *. lia.
    + apply wp_ret. split; [|unfold hrank; fold u; lia]. apply Keep; [|discriminate]. simpl. fold u. split; [lia|].
      intros Hc. exfalso. apply Ne. specialize (Hroot Hc). unfold p in Hroot. rewrite (Hch Hc). auto.
  - destruct Hok as (Hr & Hlh & Hhi & HCh & Hroot). split; [|unfold hrank; fold u; lia].
    unfold HookInv. splits; auto.
    + now rewrite upd_length.
    + discriminate.
    + intros j q Hj. apply upd_nth_error in Hj. destruct Hj as [[<- ->]|[_ Hj]].
      * simpl. fold u. splits; auto; lia.
      * eapply hpc_ok_true; eauto.
    + intros _. right. exists i, r, hi, lo. rewrite upd_nth_error_eq; auto. lia.
  - destruct Hok as (Hr & Hlh & Hhi & HCh & Hroot & Ect).
    pose proof (nodes_lt hi Hhi) as Hhn. wp1. wp1; [auto|]. wp1. wp1; [lia|]. apply wp_ret.
    split; [|unfold hrank; fold u; lia]. unfold HookInv. splits; auto.
    + now rewrite upd_length.
    + now apply good_hook.
    + intros j Hj. rewrite p_upd by auto. destruct (Nat.eqb_spec j hi) as [->|]; [|auto]. right. auto.
    + eapply frame_trans; [exact F|]. now apply frame_upd.
    + intros; congruence.
    + intros j q Hj. apply upd_nth_error in Hj. destruct Hj as [[<- ->]|[_ Hj]]; auto.
      simpl. fold u. split; [lia|]. intros Hc. congruence.
    + intros _. left. exists hi. split; auto. rewrite p_upd by auto. rewrite Nat.eqb_refl. lia.
  - congruence.
Qed.

(** ** Jump phase *)

Definition jpc_ok (m1 m : list nat) (i : nat) (pc : jpc) : Prop :=
  match pc with
  | JA => True
  | JB a => a = p m i
  | JC a b => a = p m i /\ b = p m i
  | JD => p m (p m i) < p m i /\ ~ star m1
  | JE d => d = p m i /\ p m d < d /\ ~ star m1
  | JW e => e < p m i /\ p m i < i /\ C nodes.[i] nodes.[e] /\ ~ star m1
  | JDone => p m (p m i) = p m i
  end.

Definition JumpInv (m1 : list nat) (pcs : list jpc) (m : list nat) : Prop :=
  length pcs = N /\ good m1 /\ good m /\ frame m1 m /\
  (forall j, j < N -> p m j <= p m1 j) /\ (star m1 -> m = m1) /\
  (forall i pc, nth_error pcs i = Some pc -> jpc_ok m1 m i pc).

Definition jrank (pc : jpc) : nat :=
  match pc with JA => 6 | JB _ => 5 | JC _ _ => 4 | JD => 3 | JE _ => 2 | JW _ => 1 | JDone => 0 end.

Definition psum (m : list nat) : nat := sum_r 0 N (p m).

Lemma psum_upd m j x : n <= length m -> j < N -> psum (upd m nodes.[j] x) + p m j = psum m + x.
Proof.
  intros Hm Hj. unfold psum. rewrite <- (sum_r_upd 0 N (p m) j x) by lia. f_equal.
  apply sum_r_ext. intros k Hk. apply p_upd; auto. lia.
Qed.

Lemma jump_step_inv m1 pcs m i pc :
  JumpInv m1 pcs m -> nth_error pcs i = Some pc -> pc <> JDone ->
  wp (jstep i pc m) (fun r => let '(pc', m') := r in
     JumpInv m1 (upd pcs i pc') m' /\ 8 * psum m' + jrank pc' < 8 * psum m + jrank pc).
Proof.
  intros (HLp & G1 & G & F & Hle & Hst & Hpc) Hi Hnd.
  pose proof (nth_error_lt _ _ _ Hi) as HiN. rewrite HLp in HiN.
  pose proof (nodes_lt i HiN) as Hun. pose proof G as [Gl Gj].
  assert (Keep : forall pc', jpc_ok m1 m i pc' -> JumpInv m1 (upd pcs i pc') m).
  { intros pc' Hok. unfold JumpInv. splits; auto.
    - now rewrite upd_length.
    - intros j q Hj. apply upd_nth_error in Hj. destruct Hj as [[<- ->]|[_ Hj]]; auto. }
  specialize (Hpc i pc Hi) as Hok.
  pose proof (good_lt m i G HiN) as HpN. pose proof (good_lt m _ G HpN) as HppN.
  pose proof (nodes_lt _ HpN) as HpB.
  destruct pc as [|a|a b| |d|e|]; simpl in Hok |- *.
  - wp1. wp1; [auto|]. wp1. wp1; [lia|]. apply wp_ret. split; [|simpl; lia]. apply Keep. reflexivity.
  - wp1. wp1; [auto|]. wp1. wp1; [lia|]. apply wp_ret. split; [|simpl; lia]. apply Keep. split; auto.
  - destruct Hok as [-> ->]. wp1. wp1; [auto|]. wp1. wp1; [lia|]. apply wp_ret.
    fold (p m (p m i)). destruct (Nat.eqb_spec (p m i) (p m (p m i))) as [Ee|Ne].
    + split; [|simpl; lia]. apply Keep. simpl. auto.
    + split; [|simpl; lia]. apply Keep. simpl. split.
      * destruct (Gj _ HpN). lia.
      * intros HS. apply Ne. rewrite (Hst HS). symmetry. now apply HS.
  - destruct Hok as [Hlt Hns]. wp1. wp1; [auto|]. wp1. wp1; [lia|]. apply wp_ret.
    split; [|simpl; lia]. apply Keep. simpl. auto.
  - destruct Hok as (-> & Hlt & Hns). wp1. wp1; [auto|]. wp1. wp1; [lia|]. apply wp_ret.
    split; [|simpl; lia]. apply Keep. simpl. fold (p m (p m i)).
    destruct (Gj i HiN) as [Hpi HCi]. destruct (Gj _ HpN) as [Hpp HCp].
    splits; auto.
    + destruct (Nat.eq_dec (p m i) i) as [Eq|]; [|lia]. rewrite Eq in Hlt. lia.
    + eapply conn_trans; eauto.
  - destruct Hok as (Hlt & Hnr & HCe & Hns). wp1. wp1; [auto|]. wp1. wp1; [lia|]. apply wp_ret.
    pose proof (psum_upd m i e ltac:(auto) HiN) as Hps. split; [|simpl; lia].
    assert (Hp' : forall j, j < N -> p (upd m nodes.[i] e) j <= p m j).
    { intros j Hj. rewrite p_upd by auto. destruct (Nat.eqb_spec j i) as [->|]; lia. }
    unfold JumpInv. splits; auto.
    + now rewrite upd_length.
    + apply good_hook; auto; lia.
    + eapply frame_trans; [exact F|]. now apply frame_upd.
    + intros j Hj. specialize (Hp' j Hj). specialize (Hle j Hj). lia.
    + intros HS. contradiction.
    + intros j q Hj. apply upd_nth_error in Hj. destruct Hj as [[<- ->]|[Hij Hj]]; [exact I|].
      pose proof (nth_error_lt _ _ _ Hj) as HjN. rewrite HLp in HjN.
      specialize (Hpc j q Hj). pose proof (good_lt m j G HjN) as HpjN.
      assert (Epj : p (upd m nodes.[i] e) j = p m j).
      { rewrite p_upd by auto. destruct (Nat.eqb_spec j i); [lia|auto]. }
      destruct q as [|a|a b| |d|e'|]; simpl in Hpc |- *; rewrite ?Epj; auto.
      * destruct Hpc as [H1 H2]. split; auto. specialize (Hp' _ HpjN). lia.
      * destruct Hpc as (-> & H1 & H2). splits; auto. specialize (Hp' _ HpjN). lia.
      * rewrite p_upd by auto. destruct (Nat.eqb_spec (p m j) i) as [Ei|]; auto.
        rewrite Ei in Hpc. lia.
  - congruence.
Qed.

(** ** The exit condition *)
Lemma jump_end m1 pcs m :
  JumpInv m1 pcs m -> (forall i pc, nth_error pcs i = Some pc -> pc = JDone) ->
  star m /\ psum m <= psum m1.
Proof.
  intros (HLp & G1 & G & F & Hle & Hst & Hpc) Hd. split.
  - intros j Hj. destruct (nth_error pcs j) as [pc|] eqn:Ej.
    + pose proof (Hd j pc Ej) as ->. apply (Hpc j _ Ej).
    + apply nth_error_None in Ej. lia.
  - apply sum_r_le. intros j Hj. apply Hle. lia.
Qed.

Lemma hook_end m0 pcs ch m :
  HookInv m0 pcs ch m -> (forall i pc, nth_error pcs i = Some pc -> pc = HDone) ->
  (ch = false -> m = m0 /\ star m /\ edge_eq m) /\ (ch = true -> psum m < psum m0).
Proof.
  intros (HLp & G0 & S0 & G & R & F & Hch & Hpc & Hex) Hd. split.
  - intros Hc. rewrite (Hch Hc). splits; auto. intros u v Hu Hv [k [Hk Ev]].
    destruct (In_aget nodes u Hu) as [i [Hi Eu]].
    destruct (nth_error pcs i) as [pc|] eqn:Ei.
    + pose proof (Hd i pc Ei) as ->. specialize (Hpc i _ Ei). simpl in Hpc. rewrite Eu in Hpc.
      rewrite <- Ev. apply Hpc; auto. rewrite Ev. auto.
    + apply nth_error_None in Ei. lia.
  - intros Ht. destruct (Hex Ht) as [(j & Hj & Hlt)|(i & r & hi & lo & Hi)].
    + assert (Hle : forall j, j < N -> p m j <= p m0 j) by (intros k Hk; destruct (R k Hk); lia).
      unfold psum. rewrite (sum_r_split 0 j N) by lia. rewrite (sum_r_split 0 j N (p m0)) by lia.
      rewrite (sum_r_first j N) by lia. rewrite (sum_r_first j N (p m0)) by lia.
      pose proof (sum_r_le 0 j (p m) (p m0) ltac:(intros; apply Hle; lia)).
      pose proof (sum_r_le (S j) N (p m) (p m0) ltac:(intros; apply Hle; lia)). lia.
    + apply Hd in Hi. discriminate.
Qed.

(** ** Global invariant *)
Definition InitInv (mem0 : list nat) (fl : list bool) (m : list nat) : Prop :=
  length fl = N /\ frame mem0 m /\ n <= length m /\
  (forall i, nth_error fl i = Some true -> p m i = i).

Definition Inv (mem0 : list nat) (s : cc_state) : Prop :=
  match s with
  | (PInit fl, m) => InitInv mem0 fl m
  | (PHook pcs ch, m) => exists m0, frame mem0 m0 /\ HookInv m0 pcs ch m
  | (PJump pcs ch, m) => exists m1, frame mem0 m1 /\ JumpInv m1 pcs m /\
                          (ch = false -> star m1 /\ edge_eq m1)
  | (PFin, m) => frame mem0 m /\ good m /\ star m /\ edge_eq m
  end.

Lemma hook_start m : good m -> star m -> HookInv m (repeat HStart N) false m.
Proof.
  intros G S. unfold HookInv. splits; auto.
  - apply repeat_length.
  - intros j Hj. auto.
  - apply frame_refl.
  - intros i pc Hi. apply nth_error_repeat_inv in Hi. destruct Hi as [-> _]. exact I.
  - discriminate.
Qed.

Lemma jump_start m : good m -> JumpInv m (repeat JA N) m.
Proof.
  intros G. unfold JumpInv. splits; auto.
  - apply repeat_length.
  - apply frame_refl.
  - intros i pc Hi. apply nth_error_repeat_inv in Hi. destruct Hi as [-> _]. exact I.
Qed.

Lemma init_done mem0 fl m : InitInv mem0 fl m -> (forall i b, nth_error fl i = Some b -> b = true) ->
  good m /\ star m.
Proof.
  intros (HLf & F & Hm & Hp) Hd.
  assert (Hpi : forall j, j < N -> p m j = j).
  { intros j Hj. apply Hp. destruct (nth_error fl j) as [b|] eqn:Ej.
    - now rewrite (Hd j b Ej).
    - apply nth_error_None in Ej. lia. }
  split.
  - split; auto. intros j Hj. rewrite Hpi by auto. split; [lia|constructor].
  - intros j Hj. now rewrite !Hpi by (rewrite ?Hpi; auto).
Qed.

Lemma star_step_inv mem0 fl m i : InitInv mem0 fl m -> nth_error fl i = Some false ->
  wp (star_step nodes i m) (fun m' => InitInv mem0 (upd fl i true) m').
Proof.
  intros (HLf & F & Hm & Hp) Hi. pose proof (nth_error_lt _ _ _ Hi) as HiN. rewrite HLf in HiN.
  pose proof (nodes_lt i HiN). unfold star_step. wp1. wp1; [auto|]. wp1; [lia|].
  unfold InitInv. rewrite !upd_length. splits; auto.
  - eapply frame_trans; [exact F|]. now apply frame_upd.
  - intros j Hj. apply upd_nth_error in Hj. destruct Hj as [[<- _]|[Hij Hj]].
    + rewrite p_upd by auto. now rewrite Nat.eqb_refl.
    + pose proof (nth_error_lt _ _ _ Hj) as HjN. rewrite HLf in HjN.
      rewrite p_upd by auto. destruct (Nat.eqb_spec j i); [lia|auto].
Qed.

Lemma step_inv mem0 s s' : Inv mem0 s -> step s s' -> Inv mem0 s'.
Proof.
  intros HI Hs. destruct Hs as [i fl m m' Hi Hst|fl m Hd|i pcs ch m pc pc' m' ch' Hi Hnd Hst
     |pcs ch m Hd|i pcs ch m pc pc' m' Hi Hnd Hst|pcs m Hd|pcs m Hd]; simpl in HI |- *.
  - pose proof (star_step_inv mem0 fl m i HI Hi) as H. rewrite Hst in H. exact H.
  - destruct (init_done mem0 fl m HI Hd) as [G S]. exists m. split; [apply HI|]. now apply hook_start.
  - destruct HI as (m0 & F & HI). exists m0. split; auto.
    pose proof (hook_step_inv m0 pcs ch m i pc HI Hi Hnd) as H. rewrite Hst in H. apply H.
  - destruct HI as (m0 & F & HI). exists m.
    assert (Fm : frame mem0 m).
    { eapply frame_trans; [exact F|]. apply HI. }
    splits; auto.
    + apply jump_start. apply HI.
    + intros Hc. destruct (proj1 (hook_end m0 pcs ch m HI Hd) Hc) as (_ & ? & ?). auto.
  - destruct HI as (m1 & F & HI & Hc). exists m1. splits; auto.
    pose proof (jump_step_inv m1 pcs m i pc HI Hi Hnd) as H. rewrite Hst in H. apply H.
  - destruct HI as (m1 & F & HI & Hc). exists m.
    destruct (jump_end m1 pcs m HI Hd) as [S _]. split.
    + eapply frame_trans; [exact F|apply HI].
    + apply hook_start; auto. apply HI.
  - destruct HI as (m1 & F & HI & Hc). destruct (Hc eq_refl) as [S1 E1].
    pose proof HI as (HLp & G1 & G & F' & Hle & Hst & Hpc).
    rewrite (Hst S1). splits; auto.
Qed.

Lemma start_inv mem0 : n <= length mem0 -> Inv mem0 (cc_start nodes mem0).
Proof.
  intros Hm. simpl. unfold InitInv. splits; auto.
  - apply repeat_length.
  - apply frame_refl.
  - intros i Hi. apply nth_error_repeat_inv in Hi. destruct Hi. discriminate.
Qed.

Lemma steps_inv mem0 s s' : Inv mem0 s -> cc_steps lC lR lb ub n2l nodes s s' -> Inv mem0 s'.
Proof. intros HI Hs. induction Hs as [|s s' s'' H1 IH H2]; [auto|]. apply (step_inv mem0 s'); [now apply IH|auto]. Qed.

Lemma inv_not_bad mem0 s : Inv mem0 s -> ~ cc_bad lC lR lb ub n2l nodes s.
Proof.
  intros HI. destruct s as [[fl|pcs ch|pcs ch|] m]; simpl in *; auto.
  - intros (i & e & Hi & He). pose proof (star_step_inv mem0 fl m i HI Hi) as H. now rewrite He in H.
  - destruct HI as (m0 & F & HI). intros (i & pc & e & Hi & He).
    destruct pc; try (pose proof (hook_step_inv m0 pcs ch m i _ HI Hi ltac:(discriminate)) as H;
      rewrite He in H; exact H); discriminate.
  - destruct HI as (m1 & F & HI & _). intros (i & pc & e & Hi & He).
    destruct pc; try (pose proof (jump_step_inv m1 pcs m i _ HI Hi ltac:(discriminate)) as H;
      rewrite He in H; exact H); discriminate.
Qed.

(** no deadlock *)
Lemma list_all_dec {A} (P : A -> Prop) (dec : forall a, {P a} + {~ P a}) (l : list A) :
  (forall i a, nth_error l i = Some a -> P a) \/ (exists i a, nth_error l i = Some a /\ ~ P a).
Proof.
  induction l as [|h t IH].
  - left. intros [|i] a H; discriminate.
  - destruct (dec h) as [Hh|Hh]; [|right; exists 0, h; auto].
    destruct IH as [IH|(i & a & Hi & Ha)].
    + left. intros [|i] a H; simpl in H; [inversion H; subst; auto|eauto].
    + right. exists (S i), a. auto.
Qed.

Lemma progress mem0 s : Inv mem0 s -> (exists m, s = (PFin, m)) \/ exists s', step s s'.
Proof.
  intros HI. destruct s as [[fl|pcs ch|pcs ch|] m]; [right..|left; eauto].
  - destruct (list_all_dec (fun b => b = true) (fun b => bool_dec b true) fl) as [Ha|(i & b & Hi & Hb)].
    + eexists. apply st_init_end. auto.
    + destruct b; [congruence|]. simpl in HI.
      pose proof (star_step_inv mem0 fl m i HI Hi) as H. apply wp_ok in H. destruct H as (m' & Hm & _).
      eexists. eapply st_init; eauto.
  - destruct (list_all_dec (fun pc => pc = HDone)
       ltac:(intros a; destruct a; (left; reflexivity) || (right; discriminate)) pcs)
      as [Ha|(i & pc & Hi & Hb)].
    + eexists. apply st_hook_end. auto.
    + destruct HI as (m0 & F & HI). pose proof (hook_step_inv m0 pcs ch m i pc HI Hi Hb) as H.
      apply wp_ok in H. destruct H as ([[pc' m'] ch'] & Hm & _). eexists. eapply st_hook; eauto.
  - destruct (list_all_dec (fun pc => pc = JDone)
       ltac:(intros a; destruct a; (left; reflexivity) || (right; discriminate)) pcs)
      as [Ha|(i & pc & Hi & Hb)].
    + destruct ch; eexists; [apply st_jump_again|apply st_jump_fin]; auto.
    + destruct HI as (m1 & F & HI & _). pose proof (jump_step_inv m1 pcs m i pc HI Hi Hb) as H.
      apply wp_ok in H. destruct H as ([pc' m'] & Hm & _). eexists. eapply st_jump; eauto.
Qed.

(** ** Termination *)
Definition Terminates (s : cc_state) : Prop := Acc (fun s' s => step s s') s.

Fixpoint hsum (i : nat) (pcs : list hpc) : nat :=
  match pcs with [] => 0 | pc :: t => hrank i pc + hsum (S i) t end.

Lemma hsum_upd k i pcs pc v : nth_error pcs i = Some pc ->
  hsum k (upd pcs i v) + hrank (k + i) pc = hsum k pcs + hrank (k + i) v.
Proof.
  revert k i; induction pcs as [|h t IH]; intros k [|i] H; simpl in *; try discriminate.
  - inversion H; subst. rewrite Nat.add_0_r. lia.
  - specialize (IH (S k) i H). replace (k + S i) with (S k + i) by lia. lia.
Qed.

Lemma term_fin m : Terminates (PFin, m).
Proof. constructor. intros s' Hs. inversion Hs. Qed.

Lemma term_jump S (IH : forall m, good m -> star m -> psum m < S -> Terminates (PHook (repeat HStart N) false, m)) :
  forall k m1 pcs ch m, JumpInv m1 pcs m -> 8 * psum m + lsum jrank pcs <= k ->
  (ch = true -> psum m1 < S) -> Terminates (PJump pcs ch, m).
Proof.
  induction k as [k IHk] using lt_wf_ind. intros m1 pcs ch m HI Hk HS. constructor. intros s' Hs.
  inversion Hs as [| | | |i pcs' ch' m' pc pc' m'' Hi Hnd Hst|pcs' m' Hd|pcs' m' Hd]; subst.
  - pose proof (jump_step_inv m1 pcs m i pc HI Hi Hnd) as H. rewrite Hst in H. destruct H as [HI' Hlt].
    pose proof (lsum_upd jrank pcs i pc pc' Hi) as Hl.
    apply (IHk (8 * psum m'' + lsum jrank (upd pcs i pc')) ltac:(lia) m1); auto.
  - destruct (jump_end m1 pcs m HI Hd) as [St Hle]. apply IH; auto; [apply HI|].
    specialize (HS eq_refl). lia.
  - apply term_fin.
Qed.

Lemma term_hook_start : forall S m, good m -> star m -> psum m < S ->
  Terminates (PHook (repeat HStart N) false, m).
Proof.
  induction S as [S IHS] using lt_wf_ind. intros m0 G0 S0 HS.
  assert (G : forall k pcs ch m, HookInv m0 pcs ch m -> hsum 0 pcs <= k -> Terminates (PHook pcs ch, m)).
  { induction k as [k IHk] using lt_wf_ind. intros pcs ch m HI Hk. constructor. intros s' Hs.
    inversion Hs as [| |i pcs' ch' m' pc pc' m'' ch'' Hi Hnd Hst|pcs' ch' m' Hd| | |]; subst.
    - pose proof (hook_step_inv m0 pcs ch m i pc HI Hi Hnd) as H. rewrite Hst in H.
      destruct H as [HI' Hlt]. pose proof (hsum_upd 0 i pcs pc pc' Hi) as Hl. simpl in Hl.
      apply (IHk (hsum 0 (upd pcs i pc')) ltac:(lia)); auto.
    - apply (term_jump (psum m0)) with (k := 8 * psum m + lsum jrank (repeat JA (length nodes))) (m1 := m); auto.
      + intros m' G' S' Hlt. apply (IHS (psum m0)); auto.
      + apply jump_start. apply HI.
      + intros Ht. now apply (hook_end m0 pcs ch m HI Hd). }
  apply (G (hsum 0 (repeat HStart N)) _ _ _ (hook_start m0 G0 S0)). lia.
Qed.

Lemma term_start mem0 : n <= length mem0 -> Terminates (cc_start nodes mem0).
Proof.
  intros Hm.
  assert (G : forall k fl m, InitInv mem0 fl m -> lsum (fun b : bool => if b then 0 else 1) fl <= k ->
              Terminates (PInit fl, m)).
  { induction k as [k IHk] using lt_wf_ind. intros fl m HI Hk. constructor. intros s' Hs.
    inversion Hs as [i fl' m' m'' Hi Hst|fl' m' Hd| | | | |]; subst.
    - pose proof (star_step_inv mem0 fl m i HI Hi) as H. rewrite Hst in H.
      pose proof (lsum_upd (fun b : bool => if b then 0 else 1) fl i false true Hi) as Hl. simpl in Hl.
      apply (IHk (lsum (fun b : bool => if b then 0 else 1) (upd fl i true)) ltac:(lia)); auto.
    - destruct (init_done mem0 fl m HI Hd) as [G S]. apply (term_hook_start (1 + psum m)); auto. }
  eapply G; [apply start_inv; auto|apply Nat.le_refl].
Qed.

Lemma term_no_infinite s : Terminates s -> ~ exists f, f 0 = s /\ forall i, step (f i) (f (S i)).
Proof.
  intros HT. induction HT as [s _ IH]. intros (f & H0 & Hf).
  apply (IH (f 1)).
  - rewrite <- H0. apply Hf.
  - exists (fun i => f (S i)). split; auto.
Qed.

(** ** The labels are the component minima *)
Lemma edge_eq_conn m : edge_eq m -> forall u v, C u v -> In u nodes \/ In v nodes -> u = v \/ (In u nodes /\ In v nodes /\ m.[u] = m.[v]).
Proof.
  intros HE u v HC. induction HC as [x|x y [H1 [H2 H3]]|x y H IH|x y z H1 IH1 H2 IH2]; intros Hin.
  - auto.
  - right. splits; auto. apply HE; auto. apply H1.
  - destruct IH as [->|(?&?&?)]; [tauto|auto|]. right. auto.
  - destruct (in_dec Nat.eq_dec y nodes) as [Hy|Hy].
    + destruct IH1 as [->|(?&?&?)]; auto. destruct IH2 as [->|(?&?&?)]; auto. right. splits; auto. congruence.
    + destruct Hin as [Hin|Hin].
      * destruct IH1 as [->|(?&?&?)]; auto; contradiction.
      * destruct IH2 as [->|(?&?&?)]; auto; contradiction.
Qed.

(** [m] labels each listed node with the least position in its component *)
Definition cc_labels (mem0 m : list nat) : Prop :=
  length m = length mem0 /\ (forall x, ~ In x nodes -> m.[x] = mem0.[x]) /\
  (forall i, i < N -> m.[nodes.[i]] < N /\ C nodes.[i] nodes.[m.[nodes.[i]]] /\
     forall j, j < N -> C nodes.[i] nodes.[j] -> m.[nodes.[i]] <= j).

Lemma fin_labels mem0 m : Inv mem0 (PFin, m) -> cc_labels mem0 m.
Proof.
  intros ([F1 F2] & G & S & HE). split; [auto|]. split; [auto|].
  intros i Hi. pose proof (good_lt m i G Hi) as HpN. destruct G as [Gl Gj]. destruct (Gj i Hi) as [Hp HC].
  splits; auto. intros j Hj HCj.
  destruct (edge_eq_conn m HE _ _ HCj) as [Eq|(_ & _ & Eq)].
  - left. now apply aget_In.
  - rewrite Eq. apply Gj. auto.
  - rewrite Eq. now apply Gj.
Qed.

Lemma cc_labels_unique mem0 m m' : cc_labels mem0 m -> cc_labels mem0 m' -> m = m'.
Proof.
  intros (L1 & O1 & H1) (L2 & O2 & H2). apply list_ext; [congruence|].
  intros x Hx. destruct (in_dec Nat.eq_dec x nodes) as [Hin|Hin]; [|rewrite O1, O2; auto].
  apply In_aget in Hin. destruct Hin as [i [Hi <-]].
  destruct (H1 i Hi) as (A1 & A2 & A3). destruct (H2 i Hi) as (B1 & B2 & B3).
  specialize (A3 _ B1 B2). specialize (B3 _ A1 A2). lia.
Qed.

Lemma cc_labels_same mem0 m u v : cc_labels mem0 m -> In u nodes -> In v nodes ->
  (m.[u] = m.[v] <-> C u v).
Proof.
  intros (L1 & O1 & H1) Hu Hv.
  apply In_aget in Hu. destruct Hu as [i [Hi <-]]. apply In_aget in Hv. destruct Hv as [j [Hj <-]].
  destruct (H1 i Hi) as (A1 & A2 & A3). destruct (H1 j Hj) as (B1 & B2 & B3). split.
  - intros Eq. rewrite Eq in A2. eapply conn_trans; [exact A2|]. now apply conn_sym.
  - intros HC. assert (m.[nodes.[i]] <= m.[nodes.[j]]).
    { apply A3; auto. eapply conn_trans; eauto. }
    assert (m.[nodes.[j]] <= m.[nodes.[i]]).
    { apply B3; auto. eapply conn_trans; [apply conn_sym; exact HC|auto]. }
    lia.
Qed.

(** ** The single-threaded execution *)

Lemma star_loop_wp mem0 (Q : list nat -> Prop) : n <= length mem0 ->
  (forall m, good m -> star m -> frame mem0 m -> Q m) ->
  wp (for_ 0 (length nodes) (fun i mem => star_step nodes i mem) mem0) Q.
Proof.
  intros Hm HQ.
  apply (wp_for (fun i m => frame mem0 m /\ forall j, j < i -> p m j = j)).
  - lia.
  - split; [apply frame_refl|]. intros; lia.
  - intros i m Hi [F Hp]. pose proof (nodes_lt i ltac:(lia)). destruct F as [F1 F2].
    unfold star_step. wp1. wp1; [lia|]. wp1; [lia|]. split.
    + eapply frame_trans; [split; eauto|]. apply frame_upd. lia.
    + intros j Hj. rewrite p_upd by (lia). destruct (Nat.eqb_spec j i); [lia|]. apply Hp. lia.
  - intros m [F Hp]. assert (G : n <= length m) by (destruct F; lia). apply HQ; auto.
    + split; auto. intros j Hj. rewrite Hp by auto. split; [lia|constructor].
    + intros j Hj. now rewrite !Hp by (rewrite ?Hp; auto).
Qed.

Definition SeqHook (m0 : list nat) (m : list nat) (ch : bool) : Prop :=
  good m /\ hook_rel m0 m /\ frame m0 m /\ (ch = false -> m = m0) /\
  (ch = true -> exists j, j < N /\ p m j < p m0 j).

Lemma hook_edge_wp m0 i r m ch (Q : _ -> Prop) : i < N -> good m0 -> star m0 ->
  SeqHook m0 m ch -> lC.[nodes.[i]] <= r < lC.[S nodes.[i]] ->
  (forall m' ch', SeqHook m0 m' ch' -> (ch' = false -> ch = false) ->
     (ch' = false -> In lR.[r] nodes -> m0.[nodes.[i]] = m0.[lR.[r]]) -> Q (m', ch')) ->
  wp (hook_edge lR lb ub n2l nodes nodes.[i] r (m, ch)) Q.
Proof.
  intros HiN G0 S0 HS Hr HQ. pose proof HS as (G & R & F & Hch & Hex). pose proof G as [Gl Gj].
  pose proof (nodes_lt i HiN) as Hun. set (u := nodes.[i]) in *.
  assert (Huin : In u nodes) by now apply aget_In.
  destruct (wf_col_lt n lC lR W u r Hun ltac:(lia)) as [Hr1 Hr2].
  pose proof (wf_Li_lt n lC lR W r Hr2) as Hv.
  unfold hook_edge. wp1. wp1; [lia|]. wp1. wp1; [lia|].
  destruct ((n2l.[lR.[r]] <? lb) || (ub <=? n2l.[lR.[r]])) eqn:Ew.
  - apply wp_ret. apply HQ; auto. intros _ Hin. apply HW in Hin; auto. lia.
  - assert (Hvin : In lR.[r] nodes) by (apply HW; auto; lia). set (v := lR.[r]) in *.
    wp1. wp1; [lia|]. wp1. wp1; [lia|].
    destruct (Nat.eqb_spec m.[u] m.[v]) as [Ee|Ne].
    + apply wp_ret. apply HQ; auto. intros Hc _. now rewrite <- (Hch Hc).
    + pose proof (In_aget nodes v Hvin) as [jv [Hjv Ejv]].
      destruct (Gj jv Hjv) as [Hq1 Hq2]. unfold p in Hq1, Hq2. rewrite Ejv in Hq1, Hq2.
      destruct (Gj i HiN) as [Hp1 Hp2]. unfold p in Hp1, Hp2. fold u in Hp1, Hp2.
      assert (HCuv : C u v) by (apply edge_conn; auto).
      assert (HCc : C nodes.[m.[u]] nodes.[m.[v]]).
      { eapply conn_trans; [apply conn_sym; exact Hp2|]. eapply conn_trans; [exact HCuv|exact Hq2]. }
      
      set (hi := if m.[v] <? m.[u] then m.[u] else m.[v]). set (lo := m.[u] + m.[v] - hi).
      assert (Hhl : lo < hi /\ hi < N /\ C nodes.[hi] nodes.[lo] /\ (ch = false -> p m0 hi = hi)).
      { unfold lo, hi. destruct (Nat.ltb_spec m.[v] m.[u]).
        - replace (m.[u] + m.[v] - m.[u]) with m.[v] by lia. splits; auto; try lia.
          intros Hc. rewrite (Hch Hc). apply (S0 i HiN).
        - replace (m.[u] + m.[v] - m.[v]) with m.[u] by lia. splits; auto; try lia.
          + now apply conn_sym.
          + intros Hc. rewrite (Hch Hc). rewrite <- Ejv. apply (S0 jv Hjv). }
      destruct Hhl as (Hlh & Hhi & HCh & Hroot).
      pose proof (nodes_lt hi Hhi) as Hhn. wp1. wp1; [auto|]. wp1. wp1; [lia|].
      destruct (Nat.eqb_spec hi m.[nodes.[hi]]) as [Eh|Nh].
      * wp1. wp1; [auto|]. wp1. wp1; [lia|]. apply wp_ret.
        assert (Hr0 : p m0 hi = hi) by (destruct (R hi Hhi) as [Hx|[Hx _]]; auto; unfold p in *; lia).
        apply HQ; [|discriminate|discriminate]. unfold SeqHook. splits.
        -- now apply good_hook.
        -- intros j Hj. rewrite p_upd by auto. destruct (Nat.eqb_spec j hi) as [->|]; auto.
        -- eapply frame_trans; [exact F|]. now apply frame_upd.
        -- discriminate.
        -- intros _. exists hi. split; auto. rewrite p_upd by auto. rewrite Nat.eqb_refl. lia.
      * apply wp_ret. apply HQ; auto. intros Hc. exfalso. apply Nh. specialize (Hroot Hc).
        unfold p in Hroot. rewrite (Hch Hc). auto.
Qed.

Lemma hook_loop_wp m0 (Q : _ -> Prop) : good m0 -> star m0 ->
  (forall m ch, good m -> frame m0 m -> (ch = false -> m = m0 /\ edge_eq m0) ->
     (ch = true -> psum m < psum m0) -> Q (m, ch)) ->
  wp (hook_loop lC lR lb ub n2l nodes (m0, false)) Q.
Proof.
  intros G0 S0 HQ. unfold hook_loop.
  apply (wp_for (fun i st => SeqHook m0 (fst st) (snd st) /\
     (snd st = false -> forall j k, j < i -> lC.[nodes.[j]] <= k < lC.[S nodes.[j]] ->
        In lR.[k] nodes -> m0.[nodes.[j]] = m0.[lR.[k]]))).
  - lia.
  - simpl. split.
    + unfold SeqHook. splits; auto; [intros j Hj; auto|apply frame_refl|discriminate].
    + intros; lia.
  - intros i [m ch] Hi [HS Hd]. simpl in HS, Hd.
    pose proof (nodes_lt i ltac:(lia)) as Hun. pose proof (wf_Lp_len n lC lR W).
    pose proof (wf_Lp_mono n lC lR W nodes.[i] (S nodes.[i]) ltac:(lia) ltac:(lia)).
    wp1. wp1; [lia|]. wp1. wp1; [lia|]. wp1. wp1; [lia|].
    apply (wp_for (fun r st => SeqHook m0 (fst st) (snd st) /\ (snd st = false -> ch = false) /\
      (snd st = false -> forall k, lC.[nodes.[i]] <= k < r -> In lR.[k] nodes ->
         m0.[nodes.[i]] = m0.[lR.[k]]))).
    + auto.
    + simpl. splits; auto. intros; lia.
    + intros r [m' ch'] Hr (HS' & Hc' & Hd'). simpl in HS', Hc', Hd'.
      apply (hook_edge_wp m0 i r m' ch'); auto; [lia|].
      intros m'' ch'' HS'' Hc'' He. simpl. splits; auto.
      intros Hc k Hk Hin. destruct (Nat.eq_dec k r) as [->|]; auto. apply Hd'; auto. lia.
    + intros [m' ch'] (HS' & Hc' & Hd'). simpl in *. split; auto.
      intros Hc j k Hj Hk Hin. destruct (Nat.eq_dec j i) as [->|]; [apply Hd'; auto|].
      apply (Hd (Hc' Hc)); auto. lia.
  - intros [m ch] [HS Hd]. simpl in HS, Hd. destruct HS as (G & R & F & Hch & Hex). apply HQ; auto.
    + intros Hc. split; auto. intros u v Hu Hv [k [Hk Ev]].
      apply In_aget in Hu. destruct Hu as [j [Hj <-]]. rewrite <- Ev. apply Hd; auto. rewrite Ev. auto.
    + intros Ht. destruct (Hex Ht) as (j & Hj & Hlt).
      assert (Hle : forall j, j < N -> p m j <= p m0 j) by (intros k Hk; destruct (R k Hk); lia).
      unfold psum. rewrite (sum_r_split 0 j N) by lia. rewrite (sum_r_split 0 j N (p m0)) by lia.
      rewrite (sum_r_first j N) by lia. rewrite (sum_r_first j N (p m0)) by lia.
      pose proof (sum_r_le 0 j (p m) (p m0) ltac:(intros; apply Hle; lia)).
      pose proof (sum_r_le (S j) N (p m) (p m0) ltac:(intros; apply Hle; lia)). lia.
Qed.

Lemma jump_loop_wp m1 (Q : list nat -> Prop) : good m1 ->
  (forall m, good m -> star m -> frame m1 m -> psum m <= psum m1 -> (star m1 -> m = m1) -> Q m) ->
  wp (jump_loop nodes m1) Q.
Proof.
  intros G1 HQ. unfold jump_loop.
  apply (wp_for (fun i m => good m /\ frame m1 m /\ (forall j, j < N -> p m j <= p m1 j) /\
     (star m1 -> m = m1) /\ (forall j, j < i -> p m (p m j) = p m j))).
  - lia.
  - splits; auto; [apply frame_refl|intros; lia].
  - intros i m Hi (G & F & Hle & Hst & Hd).
    pose proof (nodes_lt i ltac:(lia)) as Hun.
    wp1. wp1; [lia|].
    apply (wp_while (fun m => good m /\ frame m1 m /\ (forall j, j < N -> p m j <= p m1 j) /\
     (star m1 -> m = m1) /\ (forall j, j < i -> p m (p m j) = p m j)) (fun m => p m i)).
    + splits; auto.
    + destruct G as [_ Gj]. destruct (Gj i ltac:(lia)). lia.
    + clear m G F Hle Hst Hd. intros m (G & F & Hle & Hst & Hd).
      pose proof G as [Gl Gj]. assert (HiN : i < N) by lia.
      pose proof (good_lt m i G HiN) as HpN. pose proof (nodes_lt _ HpN) as HpB.
      destruct (Gj i HiN) as [Hpi HCi]. destruct (Gj _ HpN) as [Hpp HCp].
      wp1. wp1; [lia|]. wp1. wp1; [lia|]. fold (p m i). wp1. wp1; [auto|]. wp1. wp1; [lia|].
      fold (p m (p m i)). apply wp_ret.
      destruct (Nat.eqb_spec (p m i) (p m (p m i))) as [Ee|Ne]; simpl.
      * splits; auto. intros j Hj. destruct (Nat.eq_dec j i) as [->|]; auto. apply Hd. lia.
      * wp1. wp1; [lia|]. fold (p m i). wp1. wp1; [auto|]. wp1. wp1; [lia|]. fold (p m (p m i)).
        wp1; [lia|]. assert (Hlt : p m (p m i) < p m i) by lia.
        assert (Hnr : p m i < i).
        { destruct (Nat.eq_dec (p m i) i) as [Eq|]; [|lia]. rewrite Eq in Hlt. lia. }
        split; [splits|].
        -- apply good_hook; auto; [lia|]. eapply conn_trans; eauto.
        -- eapply frame_trans; [exact F|]. now apply frame_upd.
        -- intros j Hj. rewrite p_upd by auto. specialize (Hle j Hj).
           destruct (Nat.eqb_spec j i) as [->|]; lia.
        -- intros HS. exfalso. apply Ne. rewrite (Hst HS). symmetry. now apply HS.
        -- intros j Hj. pose proof (Hd j Hj) as Hdj. pose proof (good_lt m j G ltac:(lia)) as HpjN.
           destruct (Gj j ltac:(lia)) as [Hpj _].
           assert (Epj : p (upd m nodes.[i] (p m (p m i))) j = p m j).
           { rewrite p_upd by (auto; lia). destruct (Nat.eqb_spec j i); [lia|auto]. }
           rewrite Epj. rewrite p_upd by auto. destruct (Nat.eqb_spec (p m j) i); [lia|auto].
        -- rewrite p_upd by auto. rewrite Nat.eqb_refl. lia.
  - intros m (G & F & Hle & Hst & Hd). apply HQ; auto.
    apply sum_r_le. intros j Hj. apply Hle. lia.
Qed.

Lemma cc_iterate_wp m (Q : list nat -> Prop) : good m -> star m ->
  (forall m', frame m m' -> good m' -> star m' -> edge_eq m' -> Q m') ->
  wp (cc_iterate lC lR lb ub n2l nodes m) Q.
Proof.
  intros G S HQ. unfold cc_iterate. wp1.
  apply (wp_while (fun st => good (fst st) /\ star (fst st) /\ frame m (fst st) /\
                             (snd st = false -> edge_eq (fst st)))
                  (fun st => if snd st then Datatypes.S (psum (fst st)) else 0)).
  - simpl. splits; auto; [apply frame_refl|discriminate].
  - simpl. apply -> Nat.succ_lt_mono.
    assert (psum m <= sum_r 0 N (fun _ => N)).
    { apply sum_r_le. intros j Hj. destruct G as [_ Gj]. destruct (Gj j ltac:(lia)). lia. }
    rewrite sum_r_const in H. rewrite Nat.sub_0_r in H. lia.
  - intros [m' ch]. simpl. intros (G' & S' & F' & He'). destruct ch; simpl.
    + wp1. apply hook_loop_wp; auto. intros m2 ch2 G2 F2 Hf2 Ht2. wp1. apply jump_loop_wp; auto.
      intros m3 G3 S3 F3 Hle3 Hst3. apply wp_ret. simpl. split; [splits|].
      * auto.
      * auto.
      * eapply frame_trans; [exact F'|]. eapply frame_trans; [exact F2|auto].
      * intros Hc. destruct (Hf2 Hc) as [-> He]. rewrite (Hst3 S'). auto.
      * destruct ch2; [|lia]. specialize (Ht2 eq_refl). lia.
    + apply HQ; auto.
Qed.

Lemma parallel_cc_wp mem0 : n <= length mem0 ->
  wp (parallel_cc lC lR lb ub n2l nodes mem0) (cc_labels mem0).
Proof.
  intros Hm. unfold parallel_cc. wp1. apply star_loop_wp; auto.
  intros m G S F. apply cc_iterate_wp; auto. intros m' F' G' S' E'. apply fin_labels. simpl.
  splits; auto. eapply frame_trans; eauto.
Qed.

(** resuming from labels computed for part of the window (computeCC) *)
Lemma resume_inv m : good m -> star m -> Inv m (PHook (repeat HStart N) false, m).
Proof. intros G S. exists m. split; [apply frame_refl|now apply hook_start]. Qed.

End CCProof.
