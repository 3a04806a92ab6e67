(** Out-of-bounds accesses in grouping routines (C40). *)
From Coq Require Import ZifyBool ZifyNat.
From Verif Require Import Base Lib Lib3 Spec SpecSolve Check CheckS M_LevelSet M_SpTRSV M_Sched M_Runs M_Collect P_SpTRSV P_Runs.

(** * The run is out of bounds, or its result satisfies Q *)

Definition oob_or {A} (m : res A) (Q : A -> Prop) : Prop := match m with Ok x => Q x | Err e => e = OOB end.

Lemma oo_bind {A B} (m : res A) (f : A -> res B) Q : oob_or m (fun x => oob_or (f x) Q) -> oob_or (bind m f) Q.
Proof. destruct m; auto. Qed.
Lemma oo_ret {A} (x : A) (Q : A -> Prop) : Q x -> oob_or (Ok x) Q.
Proof. auto. Qed.
Lemma oo_mono {A} (m : res A) (Q Q' : A -> Prop) : oob_or m Q -> (forall x, Q x -> Q' x) -> oob_or m Q'.
Proof. destruct m; simpl; auto. Qed.
Lemma oo_wp {A} (m : res A) Q : wp m Q -> oob_or m Q.
Proof. intros H. apply wp_ok in H. destruct H as (x & -> & H). exact H. Qed.
Lemma oo_rd {A} `{Dflt A} (l : list A) i (Q : A -> Prop) : (i < length l -> Q l.[i]) -> oob_or (rd l i) Q.
Proof.
  intros HQ. destruct (Nat.lt_ge_cases i (length l)) as [Hi|Hi]; [rewrite rd_ok by auto; simpl; auto|].
  unfold rd. rewrite (proj2 (nth_error_None l i)) by lia. reflexivity.
Qed.
Lemma oo_wr {A} `{Dflt A} (l : list A) i x (Q : list A -> Prop) : (i < length l -> Q (upd l i x)) -> oob_or (wr l i x) Q.
Proof.
  intros HQ. destruct (Nat.lt_ge_cases i (length l)) as [Hi|Hi]; [rewrite wr_ok by auto; simpl; auto|].
  unfold wr. rewrite (proj2 (Nat.ltb_ge i (length l))) by lia. reflexivity.
Qed.
Lemma oo_for {S} (I : nat -> S -> Prop) (body : nat -> S -> res S) lo hi s (Q : S -> Prop) : lo <= hi -> I lo s ->
  (forall j s, lo <= j < hi -> I j s -> oob_or (body j s) (fun s' => I (Datatypes.S j) s')) -> (forall s, I hi s -> Q s) ->
  oob_or (for_ lo hi body s) Q.
Proof.
  intros Hle HI Hb HQ. unfold for_.
  assert (G : forall k i s, i + k = hi -> lo <= i -> I i s -> oob_or (for_n k i body s) Q).
  { induction k as [|k IH]; intros i s0 E Hi HI0; simpl; [apply HQ; now replace hi with i by lia|].
    apply oo_bind. eapply oo_mono; [apply Hb; [lia|exact HI0]|]. intros s1 H1. apply IH; auto; lia. }
  apply G; auto; lia.
Qed.
Lemma oo_while {S} (I : S -> Prop) (m : S -> nat) fuel (cond : S -> res bool) (body : S -> res S) s (Q : S -> Prop) :
  I s -> m s < fuel ->
  (forall s, I s -> oob_or (cond s) (fun b => if b then oob_or (body s) (fun s' => I s' /\ m s' < m s) else Q s)) ->
  oob_or (while_ fuel cond body s) Q.
Proof.
  revert s; induction fuel as [|f IH]; intros s HI Hm Hb; simpl; [lia|].
  apply oo_bind. eapply oo_mono; [apply Hb; exact HI|]. intros [|] Hs; [|exact Hs].
  apply oo_bind. eapply oo_mono; [exact Hs|]. intros s' [HI' Hm']. apply IH; auto. lia.
Qed.
Lemma oo_foreach {A S} (l : list A) (body : A -> S -> res S) s : (forall x s, oob_or (body x s) (fun _ => True)) -> oob_or (foreach l body s) (fun _ => True).
Proof.
  revert s. induction l as [|x l IH]; intros s Hb; simpl; [exact I|]. apply oo_bind. eapply oo_mono; [apply Hb|]. intros s' _. now apply IH.
Qed.

Lemma oo_for_true {S} (body : nat -> S -> res S) lo hi s : (forall j s, oob_or (body j s) (fun _ => True)) -> oob_or (for_ lo hi body s) (fun _ => True).
Proof.
  intros Hb. destruct (Nat.le_gt_cases lo hi); [|rewrite for_nil by lia; exact I]. apply (oo_for (fun _ _ => True)); auto.
Qed.

Ltac oo1 :=
  match goal with
  | |- oob_or (bind _ _) _ => apply oo_bind
  | |- oob_or (Ok _) _ => apply oo_ret
  | |- oob_or (rd _ _) _ => apply oo_rd
  | |- oob_or (wr _ _ _) _ => apply oo_wr
  end.

(** * inspection_sptrsvcsr_v2 *)

Lemma v2_children_spec n mP mI : wf_csc n mP mI -> rows_lower n mP mI ->
  oob_or (v2_children n mP mI) (fun '(rc, ch) => length ch = n /\ forall t c, t < n -> ch.[t] = Some c -> t < c < n).
Proof.
  intros W RL. unfold v2_children. apply (oo_for (fun i '(rc, ch) => length ch = n /\ forall t c, t < n -> ch.[t] = Some c -> t < c < n)); [lia| | |auto].
  - rewrite repeat_length. split; auto. intros t c Ht. rewrite aget_repeat by auto. discriminate.
  - intros i [rc ch] Hi (HL & HC). oo1. oo1. intros L1. oo1. oo1. intros L2. oo1.
    apply oo_mono with (fun _ => True); [destruct (_ =? _); [oo1; auto|oo1; auto]|]. intros rc' _.
    destruct (Nat.ltb_spec 1 (mP.[S i] - mP.[i])) as [H1|H1]; [|now oo1].
    oo1. oo1. intros L3. oo1. oo1. intros L4. destruct ch.[mI.[mP.[S i] - 2]] eqn:Ec; [now oo1|].
    oo1. oo1. intros _. oo1. rewrite upd_length. split; auto. intros t c Ht E.
    destruct (Nat.eq_dec t mI.[mP.[S i] - 2]) as [->|Hn].
    + rewrite aget_upd_eq in E by auto. injection E as <-. split; [|lia]. apply RL. split; [lia|]. exists (mP.[S i] - 2). split; [lia|auto].
    + rewrite aget_upd_ne in E by auto. eauto.
Qed.

Theorem C40_sptrsv_v2_out_of_bounds : forall n mP mI groupPtr groupSet groupInv, 0 < n -> wf_csc n mP mI -> rows_lower n mP mI ->
  inspection_sptrsvcsr_v2 n mP mI groupPtr groupSet groupInv = Err OOB.
Proof.
  intros n mP mI gp gs inv Hn W RL.
  assert (G : oob_or (inspection_sptrsvcsr_v2 n mP mI gp gs inv) (fun _ => False)).
  2:{ destruct (inspection_sptrsvcsr_v2 n mP mI gp gs inv); simpl in G; [tauto|congruence]. }
  unfold inspection_sptrsvcsr_v2. oo1. eapply oo_mono; [apply v2_children_spec; auto|]. intros [rc ch] (HL & HC). oo1.
  assert (HN : ch.[n - 1] = None).
  { destruct ch.[n - 1] as [c|] eqn:E; auto. apply HC in E; lia. }
  apply oo_mono with (fun _ => False); [|intros ? []]. unfold v2_link.
  apply (oo_for (fun i '(vis, next) => i < n /\ length vis = n /\ vis.[n - 1] = false)); [lia| | |].
  - rewrite repeat_length, aget_repeat by lia. auto.
  - intros i [vis next] Hi (_ & HV & HF). oo1. oo1. intros _.
    destruct vis.[i] eqn:Es; [oo1; splits; auto; destruct (Nat.eq_dec i (n - 1)); [congruence|lia]|].
    oo1. oo1. intros _. oo1. oo1. intros _. oo1.
    apply (oo_while (fun '(v, nx, cur, c) => i <= cur < n /\ c = ch.[cur] /\ length v = n /\ v.[cur] = true /\ (cur <> n - 1 -> v.[n - 1] = false))
             (fun '(v, nx, cur, c) => n - cur)); [| |].
    + splits; auto; try lia; [now rewrite upd_length|now rewrite aget_upd_eq by lia|]. intros Hne. now rewrite aget_upd_ne by lia.
    + lia.
    + intros [[[v nx] cur] c] (Hc & -> & HLv & Hvc & Hvn). unfold v2_cond. destruct (ch.[cur]) as [c|] eqn:Ec; [|reflexivity].
      pose proof (HC cur c ltac:(lia) Ec) as Hb. assert (cur <> n - 1) by lia.
      assert (HE : S i < n /\ length v = n /\ v.[n - 1] = false) by (splits; auto; lia).
      assert (HB : oob_or (v0 <- rd v c ;; Ok (negb v0)) (fun b : bool => if b
        then oob_or (vis <- wr v c true ;; _ <- rd nx c ;; next <- wr nx cur c ;; ch' <- rd ch c ;; Ok (vis, next, c, ch'))
             (fun '(v', nx', cur', c') => (i <= cur' < n /\ c' = ch.[cur'] /\ length v' = n /\ v'.[cur'] = true /\ (cur' <> n - 1 -> v'.[n - 1] = false)) /\ n - cur' < n - cur)
        else S i < n /\ length v = n /\ v.[n - 1] = false)).
      { oo1. oo1. intros _. oo1. destruct (v.[c]) eqn:Ev; cbn [negb]; [exact HE|]; cbv beta iota.
        oo1. oo1. intros _. oo1. oo1. intros _. oo1. oo1. intros _. oo1. oo1. intros _. oo1. splits; auto; try lia.
        - now rewrite upd_length.
        - now rewrite aget_upd_eq by lia.
        - intros Hne. rewrite aget_upd_ne by auto. auto. }
      oo1. destruct (_ =? 1)%Z; [oo1; cbv beta iota|oo1; intros _; destruct rc.[c]; cbv beta iota; [|oo1; exact HE]].
      * eapply oo_mono; [exact HB|]. intros [|] H0; [|exact H0]. eapply oo_mono; [exact H0|]. intros [[[v' nx'] cur'] c']. auto.
      * eapply oo_mono; [exact HB|]. intros [|] H0; [|exact H0]. eapply oo_mono; [exact H0|]. intros [[[v' nx'] cur'] c']. auto.
  - intros [vis next] (H & _). lia.
Qed.
Print Assumptions C40_sptrsv_v2_out_of_bounds.

Example C40_sptrsv_v2_case : wf_csc 5 exRp exRi /\ rows_lower 5 exRp exRi /\
  inspection_sptrsvcsr_v2 5 exRp exRi (repeat 0 6) (repeat 0 5) (repeat 0 5) = Err OOB.
Proof. splits; [now apply wf_cscb_ok|now apply rows_lowerb_ok|vm_compute; reflexivity]. Qed.

(** * startCNGrouping *)

Theorem C40_cn_grouping_out_of_bounds : forall n nodes edges, 0 < n -> wf_csc n nodes edges -> startCNGrouping n nodes edges = Err OOB.
Proof.
  intros n nodes edges Hn W.
  assert (G : oob_or (startCNGrouping n nodes edges) (fun _ => False)).
  2:{ destruct (startCNGrouping n nodes edges); simpl in G; [tauto|congruence]. }
  pose proof W as (W1 & W2 & W3 & W4 & W5).
  unfold startCNGrouping. oo1. oo1. intros _. oo1. unfold cn_groups.
  apply (oo_for (fun node '(gset, gptr, inv, g) => length gset = n /\ g <= node /\ length gptr = S n /\
    (forall h, S g < h -> h <= n -> gptr.[h] = 0) /\ gptr.[g] + (if node =? n then 0 else gptr.[S g]) = node /\ (node = n -> 0 < g /\ gptr.[g] = n))); [lia| | |].
  - rewrite !repeat_length. splits; auto; try lia.
    + intros h _ Hh. rewrite aget_repeat by lia. reflexivity.
    + destruct (Nat.eqb_spec 0 n); [lia|]. rewrite !aget_repeat by lia. reflexivity.
  - intros node [[[gset gptr] inv] g] Hi (HS & Hg & HP & HZ & HE & _). destruct (Nat.eqb_spec node n); [lia|].
    oo1. oo1. intros _. oo1. oo1. intros _. oo1. oo1. intros _. oo1.
    apply oo_mono with (fun c => match c with Some x => S nodes.[node] < nodes.[S node] /\ x = edges.[S nodes.[node]] | None => True end).
    { destruct (Nat.ltb_spec 1 (nodes.[S node] - nodes.[node])); [oo1; oo1; intros _; oo1; split; [lia|auto]|now oo1]. }
    intros c Hc. oo1. oo1. intros _.
    destruct (match c with Some x => _ | None => _ end) eqn:Ec.
    + destruct c as [x|]; [|discriminate]. destruct Hc as (Hc & ->).
      assert (edges.[S nodes.[node]] < n).
      { apply W5. assert (nodes.[S node] <= nodes.[n]) by (apply (mono_le (aget nodes) n); [intros; apply W3|..]; lia). lia. }
      oo1. oo1. intros _. oo1. oo1. intros _. oo1. rewrite !upd_length. splits; auto; try lia.
      * intros h H1 H2. rewrite aget_upd_ne by lia. apply HZ; lia.
      * destruct (Nat.eqb_spec (S node) n); [lia|]. rewrite aget_upd_eq, aget_upd_ne by lia. lia.
    + oo1. oo1. intros _. oo1. oo1. intros _. oo1. oo1. intros _. oo1. rewrite !upd_length. splits; auto; try lia.
      * intros h H1 H2. rewrite aget_upd_ne by lia. apply HZ; lia.
      * rewrite aget_upd_eq by lia. destruct (Nat.eqb_spec (S node) n); [lia|]. rewrite aget_upd_ne by lia. 
 rewrite (HZ (S (S g))) by lia.
 lia.
      * intros En. split; [lia|]. rewrite aget_upd_eq by lia. lia.
  - intros [[[gset gptr] inv] g] (HS & Hg & HP & HZ & _ & HE). destruct (HE eq_refl) as (H0 & Hp).
    oo1. apply oo_mono with (fun _ => False); [|intros ? []]. unfold cn_graph.
    apply (oo_for (fun i _ => i < g)); [lia|lia| |intros s; lia].
    intros j [cn ce] Hj _. oo1. oo1. intros _. oo1. oo1. intros _. oo1. oo1. intros _. oo1. oo1. intros Hb.
    assert (S j < g) by (destruct (Nat.eq_dec (S j) g) as [E|]; [subst g; lia|lia]).
    oo1. oo1. intros _. oo1. oo1. intros _. oo1. apply oo_mono with (fun _ => True).
    { apply oo_for_true. intros k kids. oo1. oo1. intros _. destruct (_ <=? _); [oo1; oo1; intros _; now oo1|now oo1]. }
    intros kids _. oo1. oo1. intros _. oo1. oo1. intros _. oo1. eapply oo_mono; [apply oo_foreach|].
    + intros x [ce' k]. oo1. oo1. intros _. now oo1.
    + intros [ce' k] _. oo1. auto.
Qed.
Print Assumptions C40_cn_grouping_out_of_bounds.

Example C40_cn_grouping_case : wf_csc 3 [0;2;4;5] [0;1;1;2;2] /\ startCNGrouping 3 [0;2;4;5] [0;1;1;2;2] = Err OOB.
Proof. split; [now apply wf_cscb_ok|vm_compute; reflexivity]. Qed.

(** * inspection_spicocsc_v2: if the first entry below the diagonal of column 0 is the last row, the scan for
      columns without entries starts at column n *)

Theorem C40_spico_v2_out_of_bounds : forall n mP mI groupPtr groupSet groupInv, 1 < n -> wf_csc n mP mI ->
  S mP.[0] < mP.[1] -> mI.[S mP.[0]] = n - 1 -> mP.[n] - mP.[n - 1] <= 1 ->
  inspection_spicocsc_v2 n mP mI groupPtr groupSet groupInv = Err OOB.
Proof.
  intros n mP mI gp gs inv Hn W H1 H2 H3.
  assert (G : oob_or (inspection_spicocsc_v2 n mP mI gp gs inv) (fun _ => False)).
  2:{ destruct (inspection_spicocsc_v2 n mP mI gp gs inv); simpl in G; [tauto|congruence]. }
  unfold inspection_spicocsc_v2. oo1.
  apply (oo_for (fun i child => length child = n /\ (0 < i -> child.[0] = Some (n - 1)) /\ (n - 1 < i -> child.[n - 1] = None))); [lia| | |].
  - rewrite repeat_length. splits; auto; lia.
  - intros i child Hi (HL & C0 & C1). oo1. oo1. intros _. oo1. oo1. intros _. destruct (Nat.ltb_spec 1 (mP.[S i] - mP.[i])) as [Hb|Hb].
    + oo1. oo1. intros _. oo1. intros _. rewrite upd_length. splits; auto.
      * intros _. destruct (Nat.eq_dec i 0) as [->|]; [rewrite aget_upd_eq by lia; now rewrite H2|rewrite aget_upd_ne by lia; apply C0; lia].
      * intros H. replace (S i) with n in Hb by lia. replace i with (n - 1) in Hb by lia. lia.
    + oo1. intros _. rewrite upd_length. splits; auto.
      * intros _. destruct (Nat.eq_dec i 0) as [->|]; [lia|]. rewrite aget_upd_ne by lia. apply C0; lia.
      * intros H. replace i with (n - 1) by lia. now rewrite aget_upd_eq by lia.
  - intros child (HL & C0 & C1). specialize (C0 ltac:(lia)). specialize (C1 ltac:(lia)). oo1. apply oo_mono with (fun _ => False); [|intros ? []].
    apply (oo_for (fun i s => i = 0 /\ s = (repeat false n, repeat 0 n, repeat 0 n, repeat 0 n))); [lia|auto| |intros s (E & _); lia].
    intros i s _ (-> & ->). oo1. oo1. intros _. oo1. oo1. intros _. rewrite C0, aget_repeat by lia. cbv beta iota.
    oo1. oo1. intros _. oo1. oo1. intros _. oo1. oo1. intros _. rewrite !aget_repeat by lia. cbn [Nat.eqb andb].
    oo1. oo1. intros _. oo1. oo1. intros _. oo1. oo1. intros _. oo1. oo1. intros _. oo1. oo1. intros _. rewrite C1. cbv beta iota.
    oo1. cbn [while_]. oo1. oo1. oo1. cbv beta iota. oo1. cbn [while_]. oo1. oo1. oo1. intros H. exfalso. lia.
Qed.
Print Assumptions C40_spico_v2_out_of_bounds.

Example C40_spico_v2_case : wf_csc 3 [0;2;3;4] [0;2;1;2] /\ S ([0;2;3;4].[0]) < [0;2;3;4].[1] /\ [0;2;1;2].[1] = 2 /\
  inspection_spicocsc_v2 3 [0;2;3;4] [0;2;1;2] (repeat 0 4) (repeat 0 3) (repeat 0 3) = Err OOB.
Proof. splits; [now apply wf_cscb_ok|vm_compute; lia|reflexivity|vm_compute; reflexivity]. Qed.
