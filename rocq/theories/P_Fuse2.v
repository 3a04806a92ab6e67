(** C118, continued: a block of the second solve that nothing leads to is in no level, whatever the matrices. *)
From Verif Require Import Base Lib Lib2 Spec SpecSuper SpecFuse Check L_LBC5 M_Multi M_Fuse L_Bfs L_Fuse L_Fuse2 L_Fuse3.
From Coq Require Import ZifyBool ZifyNat.

(** if the computation returns, then with [Q] *)
Definition pc {A} (m : res A) (Q : A -> Prop) : Prop := match m with Ok x => Q x | Err _ => True end.
Lemma pc_bind {A B} (m : res A) (f : A -> res B) Q : pc m (fun x => pc (f x) Q) -> pc (bind m f) Q.
Proof. destruct m; auto. Qed.
Lemma pc_mono {A} (m : res A) (Q Q' : A -> Prop) : pc m Q -> (forall x, Q x -> Q' x) -> pc m Q'.
Proof. destruct m; simpl; auto. Qed.
Lemma pc_any {A} (m : res A) (Q : A -> Prop) : (forall x, Q x) -> pc m Q.
Proof. destruct m; simpl; auto. Qed.
Lemma pc_wp {A} (m : res A) Q : wp m Q -> pc m Q.
Proof. destruct m; simpl; auto. Qed.
Lemma pc_for {S} (I : S -> Prop) (body : nat -> S -> res S) lo hi s : I s -> (forall j s, I s -> pc (body j s) I) -> pc (for_ lo hi body s) I.
Proof.
  intros H0 Hb. unfold for_. generalize (hi - lo). intros k. revert lo s H0. induction k as [|k IH]; intros i s H0; simpl; [exact H0|].
  apply pc_bind. eapply pc_mono; [now apply Hb|]. intros s' Hs. now apply IH.
Qed.
Lemma pc_foreach {A S} (P : A -> Prop) (I : S -> Prop) (l : list A) (body : A -> S -> res S) s : (forall x, In x l -> P x) -> I s ->
  (forall x s, P x -> I s -> pc (body x s) I) -> pc (foreach l body s) I.
Proof.
  intros Hl H0 Hb. revert s H0. induction l as [|x l IH]; intros s H0; simpl; [exact H0|].
  apply pc_bind. eapply pc_mono; [apply Hb; [apply Hl; now left|auto]|]. intros s' Hs. apply IH; auto. intros y Hy. apply Hl. now right.
Qed.
Lemma pc_while {S} (I : S -> Prop) fuel (cond : S -> res bool) (body : S -> res S) s : I s -> (forall s, I s -> pc (body s) I) -> pc (while_ fuel cond body s) I.
Proof.
  intros H0 Hb. revert s H0. induction fuel as [|f IH]; intros s H0; simpl; [exact Logic.I|].
  apply pc_bind, pc_any. intros [|]; [|exact H0]. apply pc_bind. eapply pc_mono; [now apply Hb|]. intros s' Hs. now apply IH.
Qed.
Lemma pc_wr {A} (l : list A) i v (Q : list A -> Prop) : (i < length l -> Q (upd l i v)) -> pc (wr l i v) Q.
Proof. intros H. unfold wr. destruct (Nat.ltb_spec i (length l)); simpl; auto. Qed.
Lemma In_upd {A} (l : list A) i v x : In x (upd l i v) -> x = v \/ In x l.
Proof. revert i. induction l as [|a l IH]; intros [|i]; simpl; auto; intros [->|H]; auto. destruct (IH i H); auto. Qed.

(** what is in the levels was at the start of the queue or is a target of something that is in the levels *)
Lemma fuse_levels_closed (G : nat -> Prop) targets deg N size lpsize sources inq :
  (forall v, In v sources -> G v) -> (forall u, G u -> pc (targets u) (fun ts => forall w, In w ts -> G w)) ->
  pc (fuse_levels targets (fun _ => Ok []) deg N size lpsize sources inq) (fun r => forall v, In v (snd (snd r)) -> v = 0 \/ G v).
Proof.
  intros HS HT. unfold fuse_levels. apply pc_bind, pc_any. intros lp. apply pc_bind.
  apply pc_mono with (fun s => let '(queue, vis, inq, levels, lev_num, cur, lp, cur_n) := s in (forall v, In v queue -> G v) /\ (forall v, In v levels -> v = 0 \/ G v)).
  - apply pc_while.
    + split; auto. intros v Hv. apply repeat_spec in Hv. now left.
    + intros [[[[[[[queue vis] inq'] levels] lev_num] cur] lp'] cur_n] (HQ & HL).
      apply pc_bind, pc_any. intros a. apply pc_bind, pc_any. intros lp2. apply pc_bind.
      apply pc_mono with (fun s => let '((queue, vis, inq, next), levels, lev_num) := s in (forall v, In v queue -> G v) /\ (forall v, In v levels -> v = 0 \/ G v)).
      * apply pc_for; [auto|]. intros _ [[[[[q vs] iq] next] lv] ln] (HQ' & HL'). unfold fuse_node. destruct q as [|index q]; [exact Logic.I|].
        assert (GI : G index) by (apply HQ'; now left).
        apply pc_bind, pc_any. intros x. apply pc_bind, pc_any. intros vs2. apply pc_bind, pc_any. intros iq2. apply pc_bind, pc_wr. intros _.
        apply pc_bind. eapply pc_mono; [now apply HT|]. intros ts Hts. apply pc_bind.
        apply pc_mono with (fun s => let '(queue, vis, inq, next) := s in forall v, In v queue -> G v).
        { apply (pc_foreach G); [auto|intros v Hv; apply HQ'; now right|]. intros o [[[q3 v3] i3] n3] GO HQ3. unfold visit_one.
          apply pc_bind, pc_any. intros x3. apply pc_bind, pc_any. intros v4. apply pc_bind, pc_any. intros d. apply pc_bind, pc_any. intros [|]; [|exact HQ3].
          apply pc_bind, pc_any. intros i4. simpl. intros v Hv. apply in_app_iff in Hv. destruct Hv as [Hv|[<-|[]]]; auto. }
        intros [[[q3 v3] i3] n3] HQ3. cbn [bind foreach]. simpl. split; auto. intros v Hv. apply In_upd in Hv. destruct Hv as [->|Hv]; auto.
      * intros [[[[[q3 v3] i3] n3] l3] ln3] H3. simpl. exact H3.
  - intros [[[[[[[queue vis] inq'] levels] lev_num] cur] lp'] cur_n] (HQ & HL). simpl. auto.
Qed.

Section Lost.
Variables (n nodes : nat) (Ap Ai Bp Bi Cp Ci : list nat) (super : list Z) (sup : list nat) (fuel : nat).
Hypothesis CU : cutsZ true n nodes super.
Hypothesis SU : sup_ok true n nodes super sup.
Hypothesis WA : wf_csc n Ap Ai.
Hypothesis WB : wf_csc n Bp Bi.
Hypothesis WC : wf_csc n Cp Ci.
Hypothesis TA : tri_of true n Ap Ai.
Hypothesis TC : tri_of true n Cp Ci.
Hypothesis N0 : 0 < n.
Hypothesis FU : nodes < fuel.
Let fe := fused_edge nodes Ap Ai Bp Bi Cp Ci super.
Let cd := code n nodes super.

Lemma lost_targets x : x < 2 * nodes -> pc (bcb_targets fuel n nodes Ap Ai Bp Bi Cp Ci sup super (cd x)) (fun ts => forall w, In w ts -> exists y, y < 2 * nodes /\ w = cd y /\ (x = y \/ fe x y)).
Proof.
  intros Hx. assert (SI := fun w => succ_In n nodes Ap Ai Bp Bi Cp Ci super sup CU SU WA WB WC TA TC N0 fuel FU x w Hx). fold cd fe in SI.
  assert (F := fl n nodes super CU).
  unfold bcb_targets. cbv zeta. destruct (two n nodes Ap Ai Bp Bi Cp Ci super sup N0 fuel FU x Hx) as [[H E]|(s & H & Ex & E)].
  - fold cd in E. rewrite E in *. pose proof (F x H) as Hl. rewrite Nat.div_small in * by auto. cbn [Nat.eqb Nat.mul] in *. rewrite Nat.sub_0_r.
    pose proof (find_ld n nodes Ap Ai Bp Bi Cp Ci super sup CU N0 fuel FU x H) as FL. rewrite FL in *. cbv zeta in SI.
    destruct (next_ok n nodes Ap Ai Bp Bi Cp Ci super sup CU N0 x H) as (E1 & E2 & E3). destruct (cut_facts true n nodes super CU) as (_ & _ & _ & SL & _).
    pose proof (lead_pos true n nodes super CU x H) as LP.
    apply pc_wp. apply wp_bind, (bn_positions_wp true); [destruct WA; lia|]. apply wp_bind, (block_targets_wp true n nodes super sup SU); [now apply tg_pos_ok|].
    cbn [bind]. wp1. wp1; [lia|]. wp1. wp1; [lia|]. wp1. wp1; [destruct WB; lia|]. replace (Z.of_nat (lead super x) + (super.[S x] - super.[x]))%Z with super.[S x] by lia.
    wp1. apply P_Tree.rdZ_wp; [lia|destruct WB; lia|].
    apply wp_bind, (block_targets_wp true n nodes super sup SU); [intros p Hp; now apply (bpos_lt n nodes Ap Ai Bp Bi Cp Ci super sup CU WB N0 x)|].
    unfold wp. intros w Hw. apply SI. apply in_app_iff in Hw. apply in_app_iff. destruct Hw as [Hw|Hw]; [left|right].
    + unfold tg. apply in_map_iff in Hw. destruct Hw as (p & <- & Hp). apply in_map_iff. exists p. split; [lia|auto].
    + now rewrite map_map.
  - fold cd in E. rewrite E in *. pose proof (F s H) as Hl. assert (D : (lead super s + n) / n = 1) by (replace (lead super s + n) with (lead super s + 1 * n) by lia; rewrite Nat.div_add, Nat.div_small by lia; reflexivity).
    rewrite D in *. cbn [Nat.eqb] in *. replace (lead super s + n - 1 * n) with (lead super s) by lia. replace (lead super s + n - n) with (lead super s) in SI by lia.
    apply pc_wp. apply wp_bind, (bn_positions_wp true); [destruct WC; lia|]. apply (block_targets_wp true n nodes super sup SU); [now apply tg_pos_ok|].
    intros w Hw. apply SI. unfold tg. now rewrite map_map.
Qed.

Lemma lost_levels t : t < nodes -> (forall x, ~ fe x (nodes + t)) ->
  pc (deg <- bcb_degrees n nodes Ap Ai Bp Bi Cp Ci sup super ;;
      '(queue, inq) <- fuse_sources super nodes deg (repeat false (2 * n)) ;;
      fuse_levels (bcb_targets fuel n nodes Ap Ai Bp Bi Cp Ci sup super) (fun _ => Ok []) deg (2 * n) (2 * nodes) (2 * n + 1) queue inq)
    (fun r => ~ In (cd (nodes + t)) (snd (snd r))).
Proof.
  intros Ht NI. apply pc_bind, pc_wp, bcb_degrees_wp; auto. intros deg D1 D2 D3. apply pc_bind, pc_wp.
  apply (fuse_sources_wp true n nodes super deg (2 * n) _ CU); [lia|auto|]. intros q0 inq Q1 Q2 Q3 Q4.
  assert (C2 : cd (nodes + t) = lead super t + n) by now apply (cd2 n nodes Ap Ai Bp Bi Cp Ci super sup N0 fuel FU).
  eapply pc_mono; [apply (fuse_levels_closed (fun v => exists x, x < 2 * nodes /\ x <> nodes + t /\ v = cd x))|].
  - intros v Hv. apply Q2 in Hv. destruct Hv as (s & Hs & -> & _). exists s. splits; try lia. symmetry. now apply (cd1 n nodes Ap Ai Bp Bi Cp Ci super sup N0 fuel FU).
  - intros u (x & Hx & Hne & ->). eapply pc_mono; [now apply lost_targets|]. intros ts Hts w Hw. destruct (Hts w Hw) as (y & Hy & -> & [<-|He]); [now exists x|].
    exists y. splits; auto. intros ->. now apply (NI x).
  - intros r Hr Hin. destruct (Hr _ Hin) as [E|(x & Hx & Hne & E)]; [lia|]. apply Hne. symmetry. apply (cd_inj n nodes Ap Ai Bp Bi Cp Ci super sup CU N0 fuel FU); auto. lia.
Qed.
End Lost.

Theorem C118_lost_blocks : forall fuel n Ap Ai Bp Bi Cp Ci nodes super k lp ls t,
  cutsZ true n nodes super -> wf_csc n Ap Ai -> wf_csc n Bp Bi -> wf_csc n Cp Ci -> tri_of true n Ap Ai -> tri_of true n Cp Ci -> 0 < n -> nodes < fuel ->
  t < nodes -> (forall x, ~ fused_edge nodes Ap Ai Bp Bi Cp Ci super x (nodes + t)) ->
  bcsc_csc_bcsc_levelset fuel n Ap Ai Bp Bi Cp Ci nodes super = Ok (k, (lp, ls)) -> ~ In (code n nodes super (nodes + t)) ls.
Proof.
  intros fuel n Ap Ai Bp Bi Cp Ci nodes super k lp ls t CU WA WB WC TA TC N0 FU Ht NI E.
  assert (P : pc (bcsc_csc_bcsc_levelset fuel n Ap Ai Bp Bi Cp Ci nodes super) (fun r => ~ In (code n nodes super (nodes + t)) (snd (snd r)))).
  { unfold bcsc_csc_bcsc_levelset. apply pc_bind, pc_wp, supers_lower_wp; auto. intros sup SU. now apply lost_levels. }
  rewrite E in P. exact P.
Qed.
Print Assumptions C118_lost_blocks.

(** two columns, each its own block; the product has an entry in the first column only *)
Example C118_lost_blocks_case : exists ls, bcsc_csc_bcsc_levelset 9 2 [0;1;2] [0;1] [0;1;1] [0] [0;1;2] [0;1] 2 [0;1;2]%Z = Ok (2, ([0;2;3], ls)) /\
  ls = [0;1;2;0] /\ (forall x, ~ fused_edge 2 [0;1;2] [0;1] [0;1;1] [0] [0;1;2] [0;1] [0;1;2]%Z x (2 + 1)) /\ ~ In (code 2 2 [0;1;2]%Z (2 + 1)) ls.
Proof.
  assert (NE : forall x, ~ fused_edge 2 [0;1;2] [0;1] [0;1;1] [0] [0;1;2] [0;1] [0;1;2]%Z x (2 + 1)).
  { intros x [H|[(Hx & _ & u & v & Hu & (p & Hp & E) & Hv)|(H1 & H2 & H3)]].
    - destruct H as (_ & H & _). lia.
    - unfold block_has, aget in *. destruct x as [|[|x]]; [|cbn in Hu; assert (u = 1) by lia; subst u; cbn in Hp; lia|lia]. cbn in Hu. assert (u = 0) by lia. subst u. cbn in Hp, Hv. destruct p as [|p]; [|lia]. cbn in E. lia.
    - destruct H3 as (H3 & _ & H4 & v & (p & Hp & E) & Hv). unfold block_has, lead, aget in *. destruct x as [|[|[|x]]]; try lia. cbn in Hp, Hv. destruct p as [|p]; [|lia]. cbn in E. lia. }
  exists [0;1;2;0]. splits; [vm_compute; reflexivity|reflexivity|exact NE|]. vm_compute. intros H. repeat (destruct H as [H|H]; [discriminate|]). destruct H.
Qed.
