(** C108: the schedule of the groups rewritten as a schedule of supernodes. *)
From Verif Require Import Base Lib Lib2 Spec Check CheckS SpecSolve M_SpTRSV L_SpTRSV L_SpTRSV2 P_SpTRSV M_Conv.
From Coq Require Import ZifyBool ZifyNat Permutation.

(** [ns] non-empty supernodes of consecutive nodes that cut [0..n) *)
Definition supernodes (n ns : nat) (sp : list nat) : Prop :=
  ns < length sp /\ sp.[0] = 0 /\ (forall s, s < ns -> sp.[s] < sp.[S s]) /\ sp.[ns] = n.

(** the nodes of supernode [s] *)
Definition snodes (sp : list nat) (s : nat) : list nat := seq sp.[s] (sp.[S s] - sp.[s]).

(** every group is a sequence of whole supernodes *)
Definition whole_supernodes (ns ng : nat) (sp gp gs : list nat) : Prop :=
  forall g, g < ng -> exists ss, (forall s, In s ss -> s < ns) /\ slice gs gp.[g] gp.[S g] = flat_map (snodes sp) ss.

Section Conv.
Variables (n ns : nat) (sp : list nat).
Hypothesis SP : supernodes n ns sp.

Lemma sp_mono i j : i <= j -> j <= ns -> sp.[i] <= sp.[j].
Proof. destruct SP as (_ & _ & M & _). apply (mono_le (aget sp) ns). intros s Hs. apply Nat.lt_le_incl, M, Hs. Qed.

Lemma in_snodes s x : s < ns -> (In x (snodes sp s) <-> sp.[s] <= x < sp.[S s]).
Proof. intros Hs. destruct SP as (_ & _ & M & _). specialize (M s Hs). unfold snodes. rewrite in_seq. lia. Qed.

Lemma snodes_disjoint s s' x : s < ns -> s' < ns -> In x (snodes sp s) -> In x (snodes sp s') -> s = s'.
Proof.
  intros Hs Hs' H1 H2. apply in_snodes in H1, H2; auto. destruct (Nat.lt_total s s') as [H|[H|H]]; auto.
  - pose proof (sp_mono (S s) s' H ltac:(lia)). lia.
  - pose proof (sp_mono (S s') s H ltac:(lia)). lia.
Qed.

Lemma snodes_bound s x : s < ns -> In x (snodes sp s) -> x < n.
Proof. intros Hs Hx. apply in_snodes in Hx; auto. destruct SP as (_ & _ & _ & E). pose proof (sp_mono (S s) ns Hs ltac:(lia)). lia. Qed.

Definition is_inv (inv : list nat) : Prop := length inv = n /\ forall s x, s < ns -> In x (snodes sp s) -> inv.[x] = s.

Lemma supernode_inverse_wp (Q : list nat -> Prop) : (forall inv, is_inv inv -> Q inv) ->
  wp (supernode_inverse n ns sp) Q.
Proof.
  intros HQ. pose proof SP as (S1 & S2 & S3 & S4). unfold supernode_inverse.
  apply wp_for with (I := fun m inv => length inv = n /\ forall s x, s < m -> In x (snodes sp s) -> inv.[x] = s); [lia| | |].
  - split; [apply repeat_length|]. intros; lia.
  - intros m inv Hm (I1 & I2). wp1. wp1; [lia|]. wp1. wp1; [lia|]. pose proof (S3 m ltac:(lia)).
    pose proof (sp_mono (S m) ns ltac:(lia) ltac:(lia)).
    apply wp_for with (I := fun k inv => length inv = n /\ (forall s x, s < m -> In x (snodes sp s) -> inv.[x] = s) /\
       forall x, sp.[m] <= x < k -> inv.[x] = m); [lia| | |].
    + splits; auto. intros; lia.
    + intros k iv Hk (J1 & J2 & J3). wp1; [lia|]. rewrite upd_length. splits; auto.
      * intros s x Hs Hx. rewrite aget_upd_ne; auto. apply in_snodes in Hx; [|lia].
        pose proof (sp_mono (S s) m ltac:(lia) ltac:(lia)). lia.
      * intros x Hx. rewrite aget_upd by lia. destruct (Nat.eqb_spec x k); auto. apply J3. lia.
    + intros iv (J1 & J2 & J3). split; auto. intros s x Hs Hx. destruct (Nat.eq_dec s m) as [->|]; [|apply J2; auto; lia].
      apply J3. apply in_snodes in Hx; auto. lia.
  - intros inv H. apply HQ. exact H.
Qed.

(** the supernodes met along a list of nodes *)
Fixpoint met (inv : list nat) (prev : option nat) (l : list nat) : list nat :=
  match l with
  | [] => []
  | x :: t => if match prev with Some q => inv.[x] =? q | None => false end then met inv prev t
              else inv.[x] :: met inv (Some inv.[x]) t
  end.

Lemma met_same inv s l t : (forall x, In x l -> inv.[x] = s) -> met inv (Some s) (l ++ t) = met inv (Some s) t.
Proof.
  induction l as [|x l IH]; intros H; auto. cbn [app met]. rewrite (H x) by now left. rewrite Nat.eqb_refl.
  apply IH. intros; apply H; now right.
Qed.

Lemma snodes_cons s : s < ns -> snodes sp s = sp.[s] :: seq (S sp.[s]) (sp.[S s] - sp.[s] - 1).
Proof.
  intros Hs. destruct SP as (_ & _ & M & _). specialize (M s Hs). unfold snodes.
  replace (sp.[S s] - sp.[s]) with (S (sp.[S s] - sp.[s] - 1)) at 1 by lia. reflexivity.
Qed.

Lemma met_supernodes inv prev ss : is_inv inv -> (forall s, In s ss -> s < ns) -> NoDup ss ->
  (forall q, prev = Some q -> ~ In q ss) -> met inv prev (flat_map (snodes sp) ss) = ss.
Proof.
  intros (I1 & I2). revert prev. induction ss as [|s ss IH]; intros prev HB HN HP; auto.
  assert (Hs : s < ns) by (apply HB; now left). apply NoDup_cons_iff in HN. destruct HN as [HN1 HN2].
  cbn [flat_map]. rewrite snodes_cons by auto. cbn [app met].
  assert (E : inv.[sp.[s]] = s). { apply I2; auto. rewrite snodes_cons by auto. now left. }
  rewrite E. destruct prev as [q|].
  - destruct (Nat.eqb_spec s q) as [->|_]; [elim (HP q eq_refl); now left|].
    f_equal. rewrite met_same.
    + apply IH; auto. { intros; apply HB; now right. } { intros q' Eq. injection Eq as <-. auto. }
    + intros x Hx. apply I2; auto. rewrite snodes_cons by auto. now right.
  - f_equal. rewrite met_same.
    + apply IH; auto. { intros; apply HB; now right. } { intros q' Eq. injection Eq as <-. auto. }
    + intros x Hx. apply I2; auto. rewrite snodes_cons by auto. now right.
Qed.

Lemma conv_group_wp gp gs inv g nodes cnt (Q : list nat * nat -> Prop) : is_inv inv ->
  S g < length gp -> gp.[g] <= gp.[S g] -> gp.[S g] <= length gs -> (forall k, gp.[g] <= k < gp.[S g] -> gs.[k] < n) ->
  (let l := met inv None (slice gs gp.[g] gp.[S g]) in Q (nodes ++ l, cnt + length l)) ->
  wp (conv_group gp gs inv g (nodes, cnt)) Q.
Proof.
  intros (I1 & I2) H1 H2 H3 H4 HQ. unfold conv_group. wp1. wp1; [lia|]. wp1. wp1; [lia|]. wp1. cbn [fst snd].
  apply wp_for with (I := fun k st => let '(nd, c, prev) := st in
     nd ++ met inv prev (slice gs k gp.[S g]) = nodes ++ met inv None (slice gs gp.[g] gp.[S g]) /\
     c + length (met inv prev (slice gs k gp.[S g])) = cnt + length (met inv None (slice gs gp.[g] gp.[S g]))); [lia| | |].
  - auto.
  - intros k [[nd c] prev] Hk (E1 & E2). pose proof (H4 k Hk). rewrite (slice_cons gs k) in E1, E2 by lia.
    wp1. wp1; [lia|]. wp1. wp1; [lia|]. cbn [met] in E1, E2.
    destruct (match prev with Some q => inv.[gs.[k]] =? q | None => false end); wp1; auto.
    split; [now rewrite <- app_assoc|]. cbn [length] in E2. lia.
  - intros [[nd c] prev] (E1 & E2). wp1. rewrite slice_nil in E1, E2 by lia. cbn [met length] in E1, E2.
    rewrite app_nil_r in E1. rewrite Nat.add_0_r in E2. subst nd c. exact HQ.
Qed.

End Conv.

Lemma NoDup_flat_map_inj {A B} (f : A -> list B) l : (forall a, In a l -> f a <> []) -> NoDup (flat_map f l) -> NoDup l.
Proof.
  induction l as [|a l IH]; intros HN ND; [constructor|]. cbn [flat_map] in ND. constructor.
  - intros Ha. destruct (f a) as [|b t] eqn:E; [apply (HN a); [now left|auto]|].
    cbn [app] in ND. inversion ND as [|? ? H1 H2]; subst. apply H1. apply in_or_app. right. apply in_flat_map. exists a. split; auto.
    rewrite E. now left.
  - apply IH. { intros; apply HN; now right. } clear -ND. induction (f a) as [|b t IH]; auto. apply IH. now inversion ND.
Qed.

Lemma NoDup_r {A} (a b : list A) : NoDup (a ++ b) -> NoDup b.
Proof. induction a as [|x a IH]; auto. cbn [app]. intros H. apply NoDup_cons_iff in H. now apply IH. Qed.

Lemma NoDup_l {A} (a b : list A) : NoDup (a ++ b) -> NoDup a.
Proof. intros H. apply (NoDup_r b). apply (Permutation_NoDup (Permutation_app_comm a b) H). Qed.

Lemma firstn_S_snoc {A} `{Dflt A} (l : list A) m : m < length l -> firstn (S m) l = firstn m l ++ [l.[m]].
Proof.
  revert m. induction l as [|h t IH]; intros m Hm; simpl in Hm; [lia|].
  destruct m as [|m]; [reflexivity|]. rewrite aget_cons_S. cbn [firstn app]. f_equal. apply IH. lia.
Qed.

(** C108: when the groups are sequences of whole supernodes the new schedule has the levels
    and parts of the old one, lists every supernode exactly once, and every part executes the
    same nodes in the same order; the group executor run on it, with the supernodes as groups,
    runs the very same program *)
Theorem C108_supernode_schedule :
  forall n ns ng sp gp gs no lp pp np, supernodes n ns sp -> group_partition n ng gp gs -> ng < length gp -> n <= length gs ->
  whole_supernodes ns ng sp gp gs -> sched_wf ng no lp pp np -> sched_complete ng np ->
  exists pp' np', convertCNScheduleToSuperNode n ns gp gs sp no lp pp np = Ok (pp', np') /\
    sched_wf ns no lp pp' np' /\ sched_complete ns np' /\
    (forall p, p < lp.[no] -> flat_map (snodes sp) (slice np' pp'.[p] pp'.[S p])
        = flat_map (fun g => slice gs gp.[g] gp.[S g]) (slice np pp.[p] pp.[S p])) /\
    exists P, group_lbc_prog no lp pp np gp gs = Ok P /\ group_lbc_prog no lp pp' np' sp (seq 0 n) = Ok P.
Proof.
  intros n ns ng sp gp gs no lp pp np SP GP LG LS WS SW SC.
  pose proof SW as (S1 & S2 & S3 & S4 & S5 & S6 & S7 & S8). pose proof SC as (C1 & C2). pose proof GP as (G1 & G2 & G3 & G4 & G5).
  set (seg := fun g => slice gs gp.[g] gp.[S g]).
  assert (HG : forall g, g < ng -> gp.[g] <= gp.[S g] /\ gp.[S g] <= n) by (intros; eapply group_le; eauto).
  (* all nodes in the order of the schedule are distinct *)
  assert (PN : Permutation (slice np 0 ng) (seq 0 ng)).
  { assert (HLn : length (slice np 0 ng) = ng) by (rewrite slice_length; lia).
    apply NoDup_Permutation_bis.
    - apply NoDup_of_aget. rewrite HLn. intros i j Hi Hj. rewrite !aget_slice by lia. simpl. auto.
    - rewrite HLn, seq_length. lia.
    - intros x Hx. apply In_slice in Hx; [|lia|lia]. destruct Hx as (k & Hk & <-). apply in_seq. specialize (C1 k). lia. }
  assert (EG : forall m, m <= ng -> flat_map seg (seq 0 m) = slice gs 0 gp.[m]).
  { induction m as [|m IH]; intros Hm; [now rewrite G1, slice_nil by lia|]. rewrite seq_S, flat_map_app, IH by lia.
    cbn [flat_map Nat.add]. rewrite app_nil_r. unfold seg. symmetry. apply slice_app; [lia|]. apply HG. lia. }
  assert (NDg : NoDup (flat_map seg (slice np 0 ng))).
  { apply (Permutation_NoDup (l := slice gs 0 n)).
    - rewrite (Permutation_flat_map seg PN), (EG ng), G3 by lia. reflexivity.
    - apply NoDup_of_aget. rewrite slice_length by lia. intros i j Hi Hj. rewrite !aget_slice by lia. apply G5; lia. }
  assert (FB : forall x, In x (flat_map seg (slice np 0 ng)) <-> x < n).
  { intros x. rewrite (Permutation_flat_map seg PN), (EG ng), G3 by lia.
    pose proof (NoDup_of_aget (slice gs 0 n)) as ND. rewrite slice_length in ND by lia.
    assert (PG : Permutation (slice gs 0 n) (seq 0 n)).
    { apply NoDup_Permutation_bis.
      - apply ND. intros i j Hi Hj. rewrite !aget_slice by lia. apply G5; lia.
      - rewrite slice_length, seq_length by lia. lia.
      - intros y Hy. apply In_slice in Hy; [|lia|lia]. destruct Hy as (k & Hk & <-). apply in_seq. specialize (G4 k). lia. }
    split; intros Hx.
    - apply (Permutation_in _ PG) in Hx. apply in_seq in Hx. lia.
    - apply (Permutation_in _ (Permutation_sym PG)). apply in_seq. lia. }
  (* the supernodes of a stretch of the schedule *)
  assert (SS : forall a b, a <= b -> b <= ng -> exists ss, (forall s, In s ss -> s < ns) /\ flat_map seg (slice np a b) = flat_map (snodes sp) ss /\ NoDup ss).
  { intros a b Hab Hb.
    assert (X : exists ss, (forall s, In s ss -> s < ns) /\ flat_map seg (slice np a b) = flat_map (snodes sp) ss).
    { assert (HB : forall g, In g (slice np a b) -> g < ng) by (intros g Hg; apply In_slice in Hg; [|lia|lia]; destruct Hg as (k & Hk & <-); apply C1; lia).
      revert HB. generalize (slice np a b) as l. induction l as [|g l IH]; intros HB; [exists []; split; [intros s []|auto]|].
      destruct IH as (ss & H1 & H2). { intros; apply HB; now right. }
      destruct (WS g (HB g (or_introl eq_refl))) as (sg & H3 & H4). exists (sg ++ ss). split.
      - intros s Hs. apply in_app_or in Hs. destruct Hs; auto.
      - cbn [flat_map]. rewrite flat_map_app, <- H2. f_equal. exact H4. }
    destruct X as (ss & H1 & H2). exists ss. splits; auto. apply (NoDup_flat_map_inj (snodes sp)).
    - intros s Hs E. rewrite (snodes_cons n ns sp SP) in E by auto. discriminate.
    - rewrite <- H2. rewrite (slice_app np 0 a ng), (slice_app np a b ng), !flat_map_app in NDg by lia.
      apply NoDup_r, NoDup_l in NDg. exact NDg. }
  set (PI := fun p (st : list nat * list nat) => let '(np', nodes) := st in length np' = length pp /\ np'.[0] = 0 /\
     np'.[p] = length nodes /\ (forall q, q < p -> np'.[q] <= np'.[S q]) /\
     (forall s, In s nodes -> s < ns) /\ flat_map (snodes sp) nodes = flat_map seg (slice np 0 pp.[p]) /\
     forall q, q < p -> flat_map (snodes sp) (slice nodes np'.[q] np'.[S q]) = flat_map seg (slice np pp.[q] pp.[S q])).
  assert (G : wp (convertCNScheduleToSuperNode n ns gp gs sp no lp pp np) (PI lp.[no])).
  { unfold convertCNScheduleToSuperNode. wp1. apply (supernode_inverse_wp n ns sp SP). intros inv HI.
    apply wp_for with (I := fun l => PI lp.[l]); [lia| | |]; auto.
    - rewrite S2. unfold PI. splits; auto; try (intros; lia). { intros s []. } { now rewrite S5, slice_nil by lia. }
    - intros l st Hl HJ. pose proof (S3 l ltac:(lia)). pose proof (mono_le (aget lp) no S3 (S l) no ltac:(lia) ltac:(lia)).
      wp1. wp1; [lia|]. wp1. wp1; [lia|]. apply wp_for with (I := PI); auto.
      intros p [np' nodes] Hp (J1 & J2 & J3 & J4 & J5 & J6 & J7). pose proof (S6 p ltac:(lia)).
      pose proof (mono_le (aget pp) lp.[no] S6 (S p) lp.[no] ltac:(lia) ltac:(lia)) as HM. rewrite S7 in HM.
      wp1. wp1; [lia|]. wp1. wp1; [lia|]. wp1.
      apply wp_for with (I := fun k st => let '(nd, c) := st in exists l, nd = nodes ++ l /\ c = length l /\
         (forall s, In s l -> s < ns) /\ flat_map (snodes sp) l = flat_map seg (slice np pp.[p] k)); [lia| | |].
      + exists []. rewrite app_nil_r, slice_nil by lia. splits; auto. intros s [].
      + intros k [nd c] Hk (l0 & -> & -> & B0 & E0). pose proof (C1 k ltac:(lia)) as Hg. destruct (HG _ Hg).
        wp1. wp1; [lia|]. eapply conv_group_wp; eauto; try lia. { intros q Hq. apply G4. lia. }
        cbv zeta. fold (seg np.[k]). destruct (SS k (S k) ltac:(lia) ltac:(lia)) as (ss & B1 & E1 & ND).
        rewrite (slice_cons np k (S k)), (slice_nil np (S k) (S k)) in E1 by lia. cbn [flat_map] in E1. rewrite app_nil_r in E1.
        rewrite E1. rewrite (met_supernodes n ns sp SP inv None ss HI B1 ND ltac:(discriminate)).
        exists (l0 ++ ss). splits.
        * now rewrite app_assoc.
        * now rewrite app_length.
        * intros s Hs. apply in_app_or in Hs. destruct Hs; auto.
        * rewrite flat_map_app, E0. rewrite (slice_app np pp.[p] k (S k)) by lia. rewrite flat_map_app. f_equal.
          rewrite (slice_cons np k (S k)), (slice_nil np (S k) (S k)) by lia. cbn [flat_map]. now rewrite app_nil_r.
      + intros [nd c] (l0 & -> & -> & B0 & E0). wp1. wp1; [lia|]. wp1. wp1; [lia|]. wp1.
        assert (LN : forall q, q <= p -> np'.[q] <= length nodes).
        { intros q Hq. rewrite <- J3. now apply (mono_le (aget np') p J4). }
        unfold PI. rewrite upd_length. splits; auto.
        * rewrite aget_upd_ne by lia. auto.
        * rewrite aget_upd_eq by lia. rewrite app_length. lia.
        * intros q Hq. destruct (Nat.eq_dec q p) as [->|].
          -- rewrite aget_upd_eq, aget_upd_ne by lia. lia.
          -- rewrite !aget_upd_ne by lia. apply J4. lia.
        * intros s Hs. apply in_app_or in Hs. destruct Hs; auto.
        * rewrite (slice_app np 0 pp.[p] pp.[S p]) by lia. rewrite !flat_map_app. congruence.
        * intros q Hq. destruct (Nat.eq_dec q p) as [->|].
          -- rewrite aget_upd_eq, aget_upd_ne by lia. rewrite J3.
             replace (slice (nodes ++ l0) (length nodes) (length l0 + length nodes)) with l0; auto.
             unfold slice. replace (length l0 + length nodes - length nodes) with (length l0) by lia.
             rewrite skipn_app, skipn_all, Nat.sub_diag. cbn [skipn app]. now rewrite firstn_all.
          -- rewrite !aget_upd_ne by lia. rewrite <- J7 by lia. f_equal. unfold slice.
             pose proof (LN q ltac:(lia)). pose proof (LN (S q) ltac:(lia)).
             rewrite skipn_app, firstn_app, skipn_length. replace (np'.[S q] - np'.[q] - (length nodes - np'.[q])) with 0 by lia.
             cbn [firstn]. now rewrite app_nil_r. }
  apply wp_ok in G. destruct G as ((pp' & np') & E & (J1 & J2 & J3 & J4 & J5 & J6 & J7)). exists pp', np'. split; auto.
  rewrite S7 in J6.
  assert (NDn : NoDup np').
  { apply (NoDup_flat_map_inj (snodes sp)).
    - intros s Hs E0. rewrite (snodes_cons n ns sp SP) in E0 by auto. discriminate.
    - now rewrite J6. }
  assert (HLn : length np' = ns).
  { pose proof (NoDup_bounded_length ns np' NDn J5).
    assert (ns <= length np'); [|lia]. rewrite <- (seq_length ns 0). apply NoDup_incl_length; [apply seq_NoDup|].
    intros s Hs. apply in_seq in Hs. pose proof SP as (P1 & P2 & P3 & P4).
    assert (Hx : In sp.[s] (snodes sp s)) by (rewrite (snodes_cons n ns sp SP) by lia; now left).
    assert (Hx' : In sp.[s] (flat_map (snodes sp) np')) by (rewrite J6; apply FB; eapply snodes_bound; eauto; lia).
    apply in_flat_map in Hx'. destruct Hx' as (s' & Hs' & Hx'). erewrite (snodes_disjoint n ns sp SP s s'); eauto. lia. }
  assert (SW' : sched_wf ns no lp pp' np') by (unfold sched_wf; splits; auto; lia).
  assert (SC' : sched_complete ns np').
  { split; [intros k Hk; apply J5, aget_In; lia|]. intros k k' Hk Hk' Ek. apply (NoDup_aget np'); auto; lia. }
  splits; auto.
  exists (sched_prog seg no lp pp np). split.
  - apply (group_lbc_prog_ok n ng (fun _ _ => False)); auto. split; [exact SW|]. split; [exact SC|]. intros ? ? ? ? ? ? ? ? [].
  - rewrite (group_lbc_prog_ok n ns (fun _ _ => False)).
    + f_equal. unfold sched_prog. apply map_ext_in. intros l Hl. apply in_seq in Hl. apply map_ext_in. intros p Hp. apply in_seq in Hp.
      pose proof (mono_le (aget lp) no S3 (S l) no ltac:(lia) ltac:(lia)).
      unfold sched_rows. rewrite <- !flat_map_concat_map. rewrite <- J7 by lia. 
      pose proof (mono_le (aget pp') lp.[no] J4 (S p) lp.[no] ltac:(lia) ltac:(lia)). pose proof (J4 p ltac:(lia)).
      assert (HB : forall s, In s (slice np' pp'.[p] pp'.[S p]) -> s < ns).
      { intros s Hs. apply In_slice in Hs; [|lia|lia]. destruct Hs as (k & Hk & <-). apply J5, aget_In. lia. }
      revert HB. generalize (slice np' pp'.[p] pp'.[S p]) as ss. induction ss as [|s ss IH]; intros HB; auto. cbn [flat_map].
      rewrite IH by (intros; apply HB; now right). f_equal. specialize (HB s (or_introl eq_refl)). pose proof SP as (P1 & P2 & P3 & P4).
      pose proof (P3 s HB). pose proof (sp_mono n ns sp SP (S s) ns ltac:(lia) ltac:(lia)). unfold snodes.
      apply list_ext; [rewrite slice_length, seq_length; rewrite ?seq_length; lia|]. rewrite slice_length by (rewrite ?seq_length; lia).
      intros i Hi. rewrite aget_slice, !aget_seq by lia. lia.
    + split; [exact SW'|]. split; [exact SC'|]. intros ? ? ? ? ? ? ? ? [].
    + pose proof SP as (P1 & P2 & P3 & P4). split; [auto|]. splits; auto.
      * intros s Hs. specialize (P3 s Hs). lia.
      * intros i Hi. rewrite aget_seq by lia. lia.
      * intros i j Hi Hj. rewrite !aget_seq by lia. auto.
    + apply SP.
    + rewrite seq_length. lia.
Qed.
Print Assumptions C108_supernode_schedule.

(** and so it solves the system whenever the schedule of the groups does *)
Theorem C108_supernode_solve :
  forall (V : Type) (DV : Dflt V) fms quo n ns ng Lp Li (Lx b : list V) sp no lp pp np gp gs,
  lower_rows n Lp Li Lx -> n <= length b -> supernodes n ns sp ->
  group_partition n ng gp gs -> group_ordered (row_dep n Lp Li) ng gp gs -> ng < length gp -> n <= length gs ->
  whole_supernodes ns ng sp gp gs -> valid_schedule ng (quotient (row_dep n Lp Li) ng gp gs) no lp pp np ->
  exists pp' np' P, convertCNScheduleToSuperNode n ns gp gs sp no lp pp np = Ok (pp', np') /\
    group_lbc_prog no lp pp' np' sp (seq 0 n) = Ok P /\
    same_as_serial fms quo n Lp Li Lx b P /\ race_free fms quo Lp Li Lx b P.
Proof.
  intros V DV fms quo n ns ng Lp Li Lx b sp no lp pp np gp gs HL Hb SP GP GO LG LS WS VS.
  destruct (C108_supernode_schedule n ns ng sp gp gs no lp pp np SP GP LG LS WS (proj1 VS) (proj1 (proj2 VS)))
    as (pp' & np' & E & _ & _ & _ & P & EP & EP').
  destruct (C31_group_lbc_solve_serial V DV fms quo n ng Lp Li Lx b no lp pp np gp gs HL Hb GP GO LG LS VS) as (P0 & E0 & H1 & H2).
  assert (P0 = P) as -> by congruence. exists pp', np', P. splits; auto.
Qed.
Print Assumptions C108_supernode_solve.

(** the groups 0 1 | 2 3 4 | 5 consist of the supernodes 0 | 1 | 2 3 | 4 | 5 *)
Example C108_case :
  supernodes 6 5 [0;1;2;4;5;6] /\ group_partition 6 3 [0;2;5;6] [0;1;2;3;4;5] /\
  whole_supernodes 5 3 [0;1;2;4;5;6] [0;2;5;6] [0;1;2;3;4;5] /\
  sched_wf 3 2 [0;1;2] [0;2;3] [2;0;1] /\ sched_complete 3 [2;0;1] /\
  convertCNScheduleToSuperNode 6 5 [0;2;5;6] [0;1;2;3;4;5] [0;1;2;4;5;6] 2 [0;1;2] [0;2;3] [2;0;1] = Ok ([0;3;5], [4;0;1;2;3]).
Proof.
  assert (VS : valid_schedule 3 (fun _ _ => False) 2 [0;1;2] [0;2;3] [2;0;1]).
  { eapply valid_scheduleb_ok with (eb := fun _ _ => false); [intros ? ? []|vm_compute; reflexivity]. }
  split; [|split; [|split; [|split; [|split]]]].
  - unfold supernodes. splits; try (vm_compute; lia). intros s Hs. do 5 (destruct s as [|s]; [vm_compute; lia|]). lia.
  - apply level_partitionb_ok. vm_compute. reflexivity.
  - intros g Hg. destruct g as [|[|[|g]]]; [exists [0;1]|exists [2;3]|exists [4]|lia];
      (split; [intros s Hs; simpl in Hs; lia|vm_compute; reflexivity]).
  - apply VS.
  - apply VS.
  - vm_compute. reflexivity.
Qed.

(** a supernode with nodes in two groups is listed twice: the new schedule executes its
    nodes twice *)
Theorem C108_split_supernode_refuted :
  exists n ns ng sp gp gs no lp pp np pp' np', supernodes n ns sp /\ group_partition n ng gp gs /\
    sched_wf ng no lp pp np /\ sched_complete ng np /\
    convertCNScheduleToSuperNode n ns gp gs sp no lp pp np = Ok (pp', np') /\ ~ sched_wf ns no lp pp' np' /\
    group_lbc_prog no lp pp np gp gs = Ok [[[0;1]]] /\ group_lbc_prog no lp pp' np' sp (seq 0 n) = Ok [[[0;1;0;1]]].
Proof.
  exists 2, 1, 2, [0;2], [0;1;2], [0;1], 1, [0;1], [0;2], [0;1]. eexists _, _.
  assert (VS : valid_schedule 2 (fun _ _ => False) 1 [0;1] [0;2] [0;1]).
  { eapply valid_scheduleb_ok with (eb := fun _ _ => false); [intros ? ? []|vm_compute; reflexivity]. }
  split; [|split; [|split; [|split; [|split; [vm_compute; reflexivity|split; [|split]]]]]].
  - unfold supernodes. splits; try (vm_compute; lia). intros s Hs. assert (s = 0) as -> by lia. vm_compute. lia.
  - apply level_partitionb_ok. vm_compute. reflexivity.
  - apply VS.
  - apply VS.
  - intros (_ & _ & _ & _ & _ & _ & H & _). vm_compute in H. discriminate.
  - vm_compute. reflexivity.
  - vm_compute. reflexivity.
Qed.
Print Assumptions C108_split_supernode_refuted.
