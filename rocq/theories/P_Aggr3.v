(** C111: which nodes aggressiveSupernodeGrouping joins. *)
From Verif Require Import Base Lib Lib2 Spec Check CheckS SpecSolve L_SpTRSV2 L_Ungroup M_Conv P_Aggr.
From Coq Require Import ZifyBool ZifyNat Permutation.

(** * Specification *)
Section Spec.
Variables (Lp Li : list nat) (same : nat -> nat -> Prop).

(** the column of [r] is as long as the end of the column of [c] that starts [r - c] positions later *)
Definition fits (c r : nat) : Prop := Lp.[S c] - Lp.[c] = (r - c) + (Lp.[S r] - Lp.[r]).

(** the rows of a column are tried in order; [T] has been taken before.  A free row of the same place whose column has
    the wrong length ends the search. *)
Inductive picks (c : nat) : list nat -> list nat -> list nat -> Prop :=
| P_end T : picks c [] T []
| P_other r rs T ms : ~ same c r \/ In r T \/ (fits c r /\ ~ column_tail Lp Li c r) -> picks c rs T ms -> picks c (r :: rs) T ms
| P_join r rs T ms : same c r -> ~ In r T -> fits c r -> column_tail Lp Li c r -> picks c rs (T ++ [r]) ms -> picks c (r :: rs) T (r :: ms)
| P_stop r rs T : same c r -> ~ In r T -> ~ fits c r -> picks c (r :: rs) T [].

(** every block starts with the first free node *)
Definition blocks (n : nat) (sups : list (list nat)) : Prop :=
  forall a s b, sups = a ++ s :: b -> exists c ms, s = c :: ms /\ c < n /\ ~ In c (concat a) /\ (forall x, x < c -> In x (concat a)) /\
    picks c (slice Li (S Lp.[c]) Lp.[S c]) (concat a ++ [c]) ms.
End Spec.

Lemma picks_same Lp Li (same same' : nat -> nat -> Prop) c rs T ms : (forall r, In r rs -> same c r <-> same' c r) ->
  picks Lp Li same c rs T ms -> picks Lp Li same' c rs T ms.
Proof.
  intros H P. induction P; cbn [In] in H.
  - constructor.
  - apply P_other; [|apply IHP; auto]. rewrite <- (H r) by auto. auto.
  - apply P_join; auto. now apply H; auto.
  - apply P_stop; auto. now apply H; auto.
Qed.

(** the blocks are determined *)
Lemma picks_det Lp Li same c rs T ms ms' : picks Lp Li same c rs T ms -> picks Lp Li same c rs T ms' -> ms = ms'.
Proof.
  intros P. revert ms'. induction P; intros ms' P'; inversion P'; subst; auto; try tauto. f_equal. auto.
Qed.

Section Exact.
Variables (n : nat) (Lp Li : list nat) (asg : list (nat * nat)).
Hypothesis W : wf_csc n Lp Li.
Hypothesis NE : forall u, u < n -> Lp.[u] < Lp.[S u].
Hypothesis LA : length asg = n.
Notation same := (fun c r => asg.[c] = asg.[r]).

Lemma same_tail_exact c m (Q : bool -> Prop) : c < m -> m < n -> fits Lp c m ->
  (forall b, (b = true <-> column_tail Lp Li c m) -> Q b) ->
  wp (same_tail Lp Li c m (Z.of_nat m - Z.of_nat c) (Lp.[S m] - Lp.[m])) Q.
Proof.
  unfold fits. intros Hcm Hm HS HQ. pose proof W as (W1 & W2 & W3 & W4 & W5). unfold same_tail.
  pose proof (W3 m Hm). pose proof (W3 c ltac:(lia)).
  apply (wp_forb (fun r b => b = true /\ forall q, q < r -> Li.[Lp.[c] + (m - c) + q] = Li.[Lp.[m] + q])); [lia| | |].
  - split; auto. intros; lia.
  - intros r b Hr (-> & IH). pose proof (wf_col_lt n Lp Li W m (Lp.[m] + r) Hm ltac:(lia)) as [X1 _].
    pose proof (wf_col_lt n Lp Li W c (Lp.[c] + (m - c) + r) ltac:(lia) ltac:(lia)) as [X2 _].
    wp1. wp1; [lia|]. unfold rdZ. destruct (Z.ltb_spec (Z.of_nat Lp.[c] + Z.of_nat r + (Z.of_nat m - Z.of_nat c)) 0); [lia|].
    replace (Z.to_nat (Z.of_nat Lp.[c] + Z.of_nat r + (Z.of_nat m - Z.of_nat c))) with (Lp.[c] + (m - c) + r) by lia.
    wp1. wp1; [lia|]. wp1. wp1; [lia|]. wp1. wp1; [lia|]. destruct (Nat.eqb_spec Li.[Lp.[c] + (m - c) + r] Li.[Lp.[m] + r]) as [E|E]; wp1; cbn [fst snd].
    + split; auto. intros q Hq. destruct (Nat.eq_dec q r) as [->|]; auto. apply IH. lia.
    + apply HQ. split; [discriminate|]. unfold column_tail. intros T. exfalso. apply E.
      rewrite <- (aget_slice Li Lp.[m] Lp.[S m] r) by lia. rewrite T. rewrite aget_slice by lia. reflexivity.
  - intros b (-> & IH). apply HQ. split; auto. intros _. unfold column_tail.
    pose proof (wf_Lp_mono n Lp Li W (S m) n ltac:(lia) ltac:(lia)). pose proof (wf_Lp_mono n Lp Li W (S c) n ltac:(lia) ltac:(lia)).
    apply slice_ext; [lia|lia|lia|]. intros i Hi. symmetry. apply IH. lia.
Qed.

Lemma candidate_exact col it grouped T cur (Q : bool * (list bool * list nat) -> Prop) :
  col < n -> it < n -> (forall x, x <= col -> grouped.[x] = true) -> gstate n grouped T ->
  (asg.[col] <> asg.[it] \/ In it T \/ (fits Lp col it /\ ~ column_tail Lp Li col it) -> Q (false, (grouped, cur))) ->
  (asg.[col] = asg.[it] -> ~ In it T -> fits Lp col it -> column_tail Lp Li col it -> col < it ->
     gstate n (upd grouped it true) (T ++ [it]) -> Q (false, (upd grouped it true, cur ++ [it]))) ->
  (asg.[col] = asg.[it] -> ~ In it T -> ~ fits Lp col it -> Q (true, (grouped, cur))) ->
  wp (aggr_candidate Lp Li asg col it (grouped, cur)) Q.
Proof.
  intros Hc Hi HP (GL & GN & GI) Q1 Q2 Q3. pose proof W as (W1 & W2 & W3 & W4 & W5). unfold aggr_candidate.
  wp1. wp1; [lia|]. wp1. wp1; [lia|]. destruct (_ && _) eqn:EA; cbn [negb].
  2:{ wp1. apply Q1. left. intros E. rewrite E in EA. lia. }
  assert (ES : asg.[col] = asg.[it]) by (destruct asg.[col], asg.[it]; cbn [fst snd] in EA; f_equal; lia).
  wp1. wp1; [lia|]. destruct grouped.[it] eqn:EG; [wp1; apply Q1; right; left; now apply GI|].
  assert (HN : ~ In it T) by (intros Hin; apply GI in Hin; destruct Hin; congruence).
  assert (Hlt : col < it). { destruct (le_lt_dec it col) as [H|]; auto. rewrite (HP it H) in EG. discriminate. }
  cbv zeta. wp1. wp1; [lia|]. wp1. wp1; [lia|]. wp1. wp1; [lia|]. wp1. wp1; [lia|].
  pose proof (W3 it Hi). pose proof (W3 col Hc). pose proof (NE it Hi).
  destruct (Z.eqb_spec (Z.of_nat Lp.[S col] - Z.of_nat Lp.[col] - (Z.of_nat it - Z.of_nat col)) (Z.of_nat Lp.[S it] - Z.of_nat Lp.[it])) as [EO|EO];
    cbn [negb]; [|wp1; apply Q3; auto; unfold fits; lia].
  assert (HF : fits Lp col it) by (unfold fits; lia).
  replace (Z.to_nat (Z.of_nat Lp.[S col] - Z.of_nat Lp.[col] - (Z.of_nat it - Z.of_nat col))) with (Lp.[S it] - Lp.[it]) by lia.
  wp1. apply same_tail_exact; auto. intros b HB. destruct b.
  - wp1. wp1; [lia|]. wp1. apply Q2; auto; [now apply HB|]. split; [now rewrite upd_length|]. split.
    + apply (Permutation_NoDup (Permutation_app_comm [it] T)). cbn [app]. constructor; auto.
    + intros x. rewrite in_app_iff, GI, aget_upd by lia. cbn [In]. destruct (Nat.eqb_spec x it) as [->|]; split; intuition.
  - wp1. apply Q1. right. right. split; auto. intros E. apply HB in E. discriminate.
Qed.

(** the rows before position [k] have been tried *)
Definition tried (col k : nat) (done cur : list nat) : Prop :=
  exists ms, cur = col :: ms /\ forall ms', picks Lp Li same col (slice Li k Lp.[S col]) (done ++ cur) ms' ->
    picks Lp Li same col (slice Li (S Lp.[col]) Lp.[S col]) (done ++ [col]) (ms ++ ms').

Definition einv (st : nat * list bool * list (list nat)) : Prop :=
  let '(col, grouped, sups) := st in col <= n /\
     (forall x, x < col -> grouped.[x] = true) /\ (col < n -> grouped.[col] = false) /\
     gstate n grouped (concat sups) /\ blocks Lp Li same n sups.

Lemma finish_exact col sups g cur : col < n -> blocks Lp Li same n sups -> ~ In col (concat sups) -> (forall x, x < col -> In x (concat sups)) ->
  (forall x, x <= col -> g.[x] = true) -> gstate n g (concat sups ++ cur) ->
  (exists ms, cur = col :: ms /\ picks Lp Li same col (slice Li (S Lp.[col]) Lp.[S col]) (concat sups ++ [col]) ms) ->
  wp (c <- aggr_next n g col ;; Ok (c, g, sups ++ [cur])) (fun s' => einv s' /\ n - fst (fst s') < n - col).
Proof.
  intros Hc HB HN HF P1 P2 (ms & -> & HP). wp1. apply (aggr_next_wp n Lp asg); auto; [apply P2|]. intros c' C1 C2 C3. wp1. split; [|cbn [fst]; lia].
  unfold einv. splits; auto; try lia.
  - rewrite concat_app. cbn [concat]. now rewrite app_nil_r.
  - intros a s b E. destruct b as [|s' b] using rev_ind.
    + apply app_inj_tail in E. destruct E as [<- <-]. exists col, ms. auto 6.
    + rewrite app_comm_cons, app_assoc in E. apply app_inj_tail in E. destruct E as [E _]. now apply (HB a s b).
Qed.

Lemma supernodes_exact (Q : list (list nat) -> Prop) :
  (forall sups, Permutation (concat sups) (seq 0 n) -> blocks Lp Li same n sups -> Q sups) ->
  wp (aggr_supernodes n Lp Li asg) Q.
Proof.
  intros HQ. pose proof W as (W1 & W2 & W3 & W4 & W5). unfold aggr_supernodes. wp1.
  apply (wp_while einv (fun st => n - fst (fst st))).
  - split; [lia|]. split; [intros; lia|]. split; [intros; now rewrite aget_repeat|]. split; [|intros a s b E; destruct a; discriminate].
    split; [apply repeat_length|]. split; [constructor|]. intros x. split; [intros []|]. intros [Hx E]. rewrite aget_repeat in E by auto. discriminate.
  - cbn [fst]. lia.
  - intros [[col grouped] sups] (I1 & I2 & I3 & (GL & GN & GI) & I5). wp1. destruct (Nat.ltb_spec col n) as [Hc|Hc].
    + unfold aggr_one. wp1. wp1; [lia|]. wp1. wp1; [lia|]. pose proof (NE col Hc).
      pose proof (wf_Lp_mono n Lp Li W (S col) n ltac:(lia) ltac:(lia)).
      destruct (_ && _) eqn:EB; [|lia]. cbn [negb]. wp1. wp1; [lia|]. wp1.
      assert (HN : ~ In col (concat sups)) by (intros Hin; apply GI in Hin; destruct Hin as [_ Hin]; rewrite I3 in Hin by auto; discriminate).
      assert (HF : forall x, x < col -> In x (concat sups)) by (intros x Hx; apply GI; split; [lia|auto]).
      apply (wp_forb (fun k '(g, cur) => (forall x, x <= col -> g.[x] = true) /\ gstate n g (concat sups ++ cur) /\ tried col k (concat sups) cur)); [lia| | |].
      * splits.
        -- intros x Hx. rewrite aget_upd by lia. destruct (Nat.eqb_spec x col); auto. apply I2. lia.
        -- split; [now rewrite upd_length|]. split.
           ++ apply (Permutation_NoDup (Permutation_app_comm [col] (concat sups))). cbn [app]. constructor; auto.
           ++ intros x. rewrite in_app_iff, GI, aget_upd by lia. cbn [In]. destruct (Nat.eqb_spec x col) as [->|]; split; intuition.
        -- exists []. split; auto.
      * intros k [g cur] Hk (P1 & P2 & (ms & -> & P3)). pose proof (wf_col_lt n Lp Li W col k Hc ltac:(lia)) as [X1 X2].
        pose proof (W5 k X2). wp1. wp1; [lia|]. rewrite (slice_cons Li k) in P3 by lia.
        apply (candidate_exact col Li.[k] g (concat sups ++ col :: ms)); auto; cbn [fst snd].
        -- intros HO. splits; auto. exists ms. split; auto. intros ms' HP. apply P3. now apply P_other.
        -- intros ? ? ? ? ? ?. splits.
           ++ intros x Hx. rewrite aget_upd_ne by lia. auto.
           ++ now rewrite app_assoc.
           ++ exists (ms ++ [Li.[k]]). split; [reflexivity|]. intros ms' HP. rewrite <- app_assoc. apply P3. apply P_join; auto.
              rewrite app_assoc in HP. exact HP.
        -- intros ? ? ?. apply finish_exact; auto. exists ms. split; auto. rewrite <- (app_nil_r ms). apply P3. now apply P_stop.
      * intros [g cur] (P1 & P2 & (ms & -> & P3)). apply finish_exact; auto. exists ms. split; auto. rewrite <- (app_nil_r ms). apply P3.
        rewrite slice_nil by lia. constructor.
    + wp1. apply HQ; auto. apply NoDup_Permutation; auto using seq_NoDup. intros x. rewrite GI, in_seq. split; [lia|].
      intros Hx. split; [lia|]. apply I2. lia.
Qed.
End Exact.

(** * The blocks *)

(** [c] and [r] are executed in the same part of the same level *)
Definition same_place (gp gs : list nat) (no : nat) (lp pp np : list nat) (c r : nat) : Prop :=
  forall l p, node_place gp gs no lp pp np c l p <-> node_place gp gs no lp pp np r l p.

(** The blocks of C111_supernode_average are exactly these: every block starts with the first node that is in no earlier
    block; the rows of its column are tried in order, and a free one of the same place is joined if its column is the
    end of the column of the first node; the first free one of the same place whose column has the wrong length ends
    the block.  This determines the blocks. *)
Theorem C111_blocks_exact :
  forall n Lp Li ng gp gs no lp pp np, wf_csc n Lp Li -> (forall u, u < n -> Lp.[u] < Lp.[S u]) ->
  group_partition n ng gp gs -> ng < length gp -> n <= length gs -> sched_wf ng no lp pp np -> sched_complete ng np ->
  exists sups, aggressiveSupernodeGrouping n gp gs Lp Li no lp pp np = Ok (n, length sups) /\
    Permutation (concat sups) (seq 0 n) /\ blocks Lp Li (same_place gp gs no lp pp np) n sups /\
    forall sups', Permutation (concat sups') (seq 0 n) -> blocks Lp Li (same_place gp gs no lp pp np) n sups' -> sups' = sups.
Proof.
  intros n Lp Li ng gp gs no lp pp np W NE GP LG LS SW SC.
  enough (HW : wp (aggressiveSupernodeGrouping n gp gs Lp Li no lp pp np) (fun r => exists sups, r = (n, length sups) /\
    Permutation (concat sups) (seq 0 n) /\ blocks Lp Li (same_place gp gs no lp pp np) n sups)).
  { apply wp_ok in HW. destruct HW as (r & E & sups & -> & HP & HB). exists sups. splits; auto. intros sups' HP' HB'. clear E.
    assert (G : forall b b' a, a ++ b = sups -> a ++ b' = sups' -> b' = b).
    { induction b as [|s b IH]; intros [|s' b'] a E E'; auto.
      - exfalso. rewrite app_nil_r in E. subst a. destruct (HB' sups s' b' (eq_sym E')) as (c & ms & -> & Hc & HN & _). apply HN.
        apply (Permutation_in _ (Permutation_sym HP)), in_seq. lia.
      - exfalso. rewrite app_nil_r in E'. subst a. destruct (HB sups' s b (eq_sym E)) as (c & ms & -> & Hc & HN & _). apply HN.
        apply (Permutation_in _ (Permutation_sym HP')), in_seq. lia.
      - destruct (HB a s b (eq_sym E)) as (c & ms & -> & Hc & HN & HF & Hp). destruct (HB' a s' b' (eq_sym E')) as (c' & ms' & -> & Hc' & HN' & HF' & Hp').
        assert (c' = c) as ->. { destruct (lt_eq_lt_dec c c') as [[H|H]|H]; auto; exfalso; [apply HN, HF', H|apply HN', HF, H]. }
        pose proof (picks_det _ _ _ _ _ _ _ _ Hp Hp') as <-. f_equal. apply (IH b' (a ++ [c :: ms])); now rewrite <- app_assoc. }
    exact (G sups sups' [] eq_refl eq_refl). }
  unfold aggressiveSupernodeGrouping. wp1. eapply assign_nodes_wp; eauto. intros asg LA HA. wp1.
  apply supernodes_exact; auto. intros sups HP HB. wp1. exists sups.
  assert (HL : length (concat sups) = n) by (rewrite (Permutation_length HP); apply seq_length).
  split; [now rewrite sum_lengths, HL|]. split; auto. intros a s b E. destruct (HB a s b E) as (c & ms & -> & Hc & HN & HF & Hp).
  exists c, ms. splits; auto. eapply picks_same; [|exact Hp]. cbv beta. intros r Hr.
  assert (Hrn : r < n).
  { pose proof W as (_ & _ & W3 & W4 & W5). pose proof (NE c Hc). pose proof (wf_Lp_mono n Lp Li W (S c) n ltac:(lia) ltac:(lia)).
    apply In_slice in Hr; [|lia|lia]. destruct Hr as (k & Hk & <-). apply W5. lia. }
  assert (HQ : forall a b, a < n -> b < n -> asg.[a] = asg.[b] -> forall l p, node_place gp gs no lp pp np a l p -> node_place gp gs no lp pp np b l p).
  { clear - GP LG LS SW SC HA. intros a b Ha Hb E l p Hpl. pose proof (HA _ _ _ Hpl) as E1.
    destruct (place_exists n ng gp gs no lp pp np GP LG LS SW SC b Hb) as (l' & p' & Hpl'). pose proof (HA _ _ _ Hpl') as E2.
    assert (EE : (p - lp.[l], l) = (p' - lp.[l'], l')) by congruence. injection EE as E3 <-.
    destruct Hpl as (? & ? & ? & (? & _) & _), Hpl' as (? & k' & g' & (B1 & B2) & B3).
    assert (p = p') as -> by lia. split; auto. exists k', g'. split; [split|]; auto. }
  split.
  - intros EQ l p. split; apply HQ; auto.
  - intros SP. destruct (place_exists n ng gp gs no lp pp np GP LG LS SW SC c Hc) as (l & p & Hpl). rewrite (HA _ _ _ Hpl). symmetry. apply HA, SP, Hpl.
Qed.
Print Assumptions C111_blocks_exact.

(** a row of the same place with a column of the wrong length (1) stops the search before a row that would fit (2) *)
Example C111_blocks_case :
  let Lp := [0;3;5;6] in let Li := [0;1;2;1;2;2] in let Lp' := [0;3;4;5] in let Li' := [0;1;2;1;2] in
  aggr_supernodes 3 Lp Li [(0,0);(0,0);(0,0)] = Ok [[0;1;2]] /\ aggr_supernodes 3 Lp' Li' [(0,0);(0,0);(0,0)] = Ok [[0];[1];[2]] /\
  aggr_supernodes 3 Lp' Li' [(0,0);(1,0);(0,0)] = Ok [[0;2];[1]] /\ fits Lp' 0 2 /\ ~ fits Lp' 0 1 /\
  column_tail Lp' Li' 0 2 /\ wf_csc 3 Lp' Li' /\ (forall u, u < 3 -> Lp'.[u] < Lp'.[S u]).
Proof.
  cbv zeta. splits; try (vm_compute; reflexivity).
  - unfold fits. vm_compute. discriminate.
  - apply wf_cscb_ok; vm_compute; reflexivity.
  - intros u Hu. do 3 (destruct u as [|u]; [vm_compute; lia|]); lia.
Qed.
