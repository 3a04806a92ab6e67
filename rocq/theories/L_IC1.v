(** Proofs about the incomplete Cholesky kernels: what any order of the operations computes
    that respects [must], and the serial code. *)
From Coq Require Import ZifyBool ZifyNat Permutation Sorting.Sorted.
From Verif Require Import Base Lib Lib2 Spec SpecIC M_SpTRSV M_IC0 L_SpTRSV L_Post L_IC0.

Lemma before_filter_inv {A} (f : A -> bool) x y l : before x y (filter f l) -> before x y l.
Proof.
  induction l as [|a l IH]; simpl; intros H; [destruct H as ([|? ?] & b & c & E); discriminate|].
  destruct (f a) eqn:Ef; [|apply (before_app_r x y [a]); auto].
  destruct H as ([|z r] & b & c & E); injection E as -> E.
  - assert (In y l). { apply (filter_In f y l). rewrite E. apply in_app_iff. right. now left. }
    apply in_split in H. destruct H as (b' & c' & ->). exists [], b', c'. reflexivity.
  - apply (before_app_r x y [z]). apply IH. exists r, b, c. exact E.
Qed.

Lemma before_asym {A} (x y : A) l : NoDup l -> before x y l -> before y x l -> False.
Proof.
  intros ND H H'. assert (In x l /\ In y l) as (Hx & Hy).
  { destruct H as (a & b & c & ->). split; apply in_app_iff; right; [now left|right; apply in_app_iff; right; now left]. }
  apply In_nth_error in Hx, Hy. destruct Hx as (i & Hi), Hy as (j & Hj).
  pose proof (before_nth _ _ _ _ _ ND H Hi Hj). pose proof (before_nth _ _ _ _ _ ND H' Hj Hi). lia.
Qed.

Lemma before_sorted {A} (R : A -> A -> Prop) l : (forall a b, before a b l -> R a b) -> StronglySorted R l.
Proof.
  induction l as [|a l IH]; intros H; constructor.
  - apply IH. intros x y Hb. apply H. now apply (before_app_r x y [a]).
  - apply Forall_forall. intros b Hb. apply H. apply in_split in Hb. destruct Hb as (p & s & ->). exists [], p, s. reflexivity.
Qed.

Lemma before_map {A B} (f : A -> B) x y l : before x y l -> before (f x) (f y) (map f l).
Proof. intros (a & b & c & ->). exists (map f a), (map f b), (map f c). rewrite map_app. simpl. now rewrite map_app. Qed.

Lemma fold_left_perm {A B} (f : A -> B -> A) l l' a : (forall a b c, f (f a b) c = f (f a c) b) -> Permutation l l' ->
  fold_left f l a = fold_left f l' a.
Proof.
  intros C HP. revert a. induction HP as [|x l l' _ IH|x y l|l1 l2 l3 _ IH1 _ IH2]; intros a; simpl; auto.
  - now rewrite C.
  - now rewrite IH1.
Qed.

Lemma fold_left_ext_in {A B} (f g : A -> B -> A) l a : (forall a b, In b l -> f a b = g a b) -> fold_left f l a = fold_left g l a.
Proof.
  revert a. induction l as [|b l IH]; intros a H; simpl; auto. rewrite H by now left. apply IH. intros. apply H. now right.
Qed.

Section Hist.
Context {V : Type} {DV : Dflt V}.
Variables (fms : V -> V -> V -> V) (quo : V -> V -> V) (root : V -> V).
Variables (n : nat) (Lp Li : list nat).
Hypothesis CP : chol_pattern n Lp Li.

Definition app_op (y : list V) (v : V) (o : icop) : V :=
  match o with ORoot _ => quo v (root v) | ODiv _ d => quo v y.[d] | OUpd _ m l => fms v y.[m] y.[l] end.
Definition do_op (x : list V) (o : icop) : list V := upd x (tgt o) (app_op x x.[tgt o] o).
Definition run (h : list icop) (x : list V) : list V := fold_left do_op h x.

Definition op_ok (o : icop) : Prop := exists i, i < n /\ In o (ops Lp Li i).

(** no operation comes after one that needs it *)
Definition ordered (h : list icop) : Prop := forall o o', before o o' h -> ~ must o' o.
Definition good (h : list icop) : Prop := NoDup h /\ (forall o, In o h <-> op_ok o) /\ ordered h.

Lemma run_app h h' x : run (h ++ h') x = run h' (run h x).
Proof. unfold run. apply fold_left_app. Qed.

Lemma run_length h x : length (run h x) = length x.
Proof. revert x; induction h as [|o h IH]; intros x; simpl; auto. rewrite IH. unfold do_op. apply upd_length. Qed.

Lemma run_frame h x r : (forall o, In o h -> tgt o <> r) -> (run h x).[r] = x.[r].
Proof.
  revert x; induction h as [|o h IH]; intros x H; simpl; auto. rewrite IH by (intros; apply H; now right).
  unfold do_op. apply aget_upd_ne. apply H. now left.
Qed.

Lemma app_op_ext y y' v o : (forall r, In r (ext o) -> y.[r] = y'.[r]) -> app_op y v o = app_op y' v o.
Proof. intros H. destruct o; simpl in *; auto; repeat (rewrite H by auto); auto. Qed.

Lemma run_fix h x k : ordered h -> (forall o, In o h -> op_ok o) -> Lp.[n] <= length x ->
  (run h x).[k] = fold_left (app_op (run h x)) (filter (fun o => tgt o =? k) h) x.[k].
Proof.
  intros HO HK HX. set (y := run h x).
  assert (G : forall p s, h = p ++ s -> (run p x).[k] = fold_left (app_op y) (filter (fun o => tgt o =? k) p) x.[k]).
  { induction p as [|o p IH] using rev_ind; intros s E; [reflexivity|].
    rewrite run_app, filter_app, fold_left_app. rewrite <- app_assoc in E. specialize (IH _ E). simpl in *.
    assert (Ho : op_ok o). { apply HK. rewrite E. apply in_app_iff. right. now left. }
    destruct Ho as (i & Hi & Ho). destruct (touch_bounds n Lp Li CP o i Hi Ho) as (T1 & _).
    unfold do_op at 1. destruct (Nat.eqb_spec (tgt o) k) as [Ek|Ek].
    - subst k. rewrite aget_upd_eq by (rewrite run_length; lia). simpl. rewrite IH. apply app_op_ext. intros r Hr.
      unfold y. rewrite E, run_app. symmetry. apply run_frame. intros o' [<-|Ho'] Et; subst r.
      + now apply (self_ext n Lp Li CP o i).
      + apply (HO o o'); [|left; auto]. apply in_split in Ho'. destruct Ho' as (a & b & ->). rewrite E. exists p, a, b. reflexivity.
    - rewrite aget_upd_ne by auto. exact IH. }
  apply (G h []). now rewrite app_nil_r.
Qed.

(** the operation that finishes element [k] of column [c] *)
Definition fin (c k : nat) : icop := if k =? Lp.[c] then ORoot k else ODiv k Lp.[c].

Lemma fin_ops c k : Lp.[c] <= k < Lp.[S c] -> In (fin c k) (ops Lp Li c) /\ tgt (fin c k) = k /\ is_upd (fin c k) = false.
Proof. intros Hk. unfold fin. destruct (Nat.eqb_spec k Lp.[c]); simpl; splits; auto; apply In_ops; simpl; lia. Qed.

Lemma term_ops c k m l : c < n -> Lp.[c] <= k < Lp.[S c] -> op_ok (OUpd k m l) <-> term_at n Lp Li Li.[k] c m l.
Proof.
  intros Hc Hk. pose proof CP as (W & LT & SC & DF). split.
  - intros (u & Hu & H). rewrite In_ops in H. destruct H as (H1 & H2 & H3 & H4). destruct (ic_below n Lp Li CP u m Hu) as (B1 & B2); [lia|].
    destruct (ic_index n Lp Li CP u m Hu) as (B3 & _); [lia|]. assert (Li.[m] = c) by (apply (ic_unique n Lp Li CP _ _ k); auto).
    exists u. splits; auto; lia.
  - intros (u & Hu & Huc & Hm & Hl & Em & El). exists u. split; auto. apply In_ops. rewrite Em.
    destruct (DF u Hu) as (D1 & D2 & D3). destruct (DF c Hc) as (C1 & C2 & C3).
    assert (m <> Lp.[u]) by (intros ->; lia).
    assert (c <= Li.[k]). { destruct (Nat.eq_dec k Lp.[c]) as [->|]; [lia|]. specialize (SC c Lp.[c] k Hc). lia. }
    assert (m <= l). { destruct (le_lt_dec m l); auto. specialize (SC u l m Hu). lia. }
    splits; lia.
Qed.

Lemma good_entry h c k : good h -> c < n -> Lp.[c] <= k < Lp.[S c] ->
  exists ml, filter (fun o => tgt o =? k) h = map (fun p => OUpd k (fst p) (snd p)) ml ++ [fin c k] /\ terms_of n Lp Li c k ml.
Proof.
  intros (ND & HK & HO) Hc Hk. destruct (fin_ops c k Hk) as (F1 & F2 & F3).
  assert (HF : In (fin c k) h) by (apply HK; exists c; auto). apply in_split in HF. destruct HF as (p & s & E).
  assert (U : forall o, In o h -> tgt o = k -> is_upd o = false -> o = fin c k).
  { intros o Ho Et Eu. apply HK in Ho. destruct Ho as (i & Hi & Ho). eapply (fin_unique n Lp Li CP o _ i c); eauto. congruence. }
  assert (NF : ~ In (fin c k) (p ++ s)). { rewrite E in ND. now apply NoDup_remove_2 in ND. }
  assert (Es : filter (fun o => tgt o =? k) s = []).
  { destruct (filter _ s) as [|z r] eqn:Ef; auto. exfalso. assert (In z (z :: r)) as Hz by now left. rewrite <- Ef in Hz.
    apply filter_In in Hz. destruct Hz as (Hz & Ez). assert (tgt z = k) by lia. destruct (is_upd z) eqn:Eu.
    - apply (HO (fin c k) z); [|right; splits; auto; congruence]. apply in_split in Hz. destruct Hz as (a & b & ->). rewrite E. exists p, a, b. reflexivity.
    - apply NF. rewrite <- (U z); auto; [apply in_app_iff; auto|]. rewrite E. apply in_app_iff. right. now right. }
  set (us := filter (fun o => tgt o =? k) p).
  assert (HU : forall o, In o us -> o = OUpd k (src1 o) (src2 o)).
  { intros o Ho. apply filter_In in Ho. destruct Ho as (Ho & Et). assert (tgt o = k) as Et' by lia. destruct (is_upd o) eqn:Eu.
    - destruct o; try discriminate. simpl in *. congruence.
    - exfalso. apply NF. rewrite <- (U o); auto; [apply in_app_iff; auto|]. rewrite E. apply in_app_iff. auto. }
  exists (map (fun o => (src1 o, src2 o)) us).
  assert (EM : map (fun p0 => OUpd k (fst p0) (snd p0)) (map (fun o => (src1 o, src2 o)) us) = us).
  { rewrite map_map. rewrite <- (map_id us) at 2. apply map_ext_in. intros o Ho. simpl. symmetry. auto. }
  splits.
  - rewrite EM, E, filter_app. simpl. rewrite F2, Nat.eqb_refl, Es. reflexivity.
  - split.
    + apply (NoDup_map_inv (fun p0 => OUpd k (fst p0) (snd p0))). rewrite EM. apply NoDup_filter. rewrite E in ND.
      apply NoDup_remove_1 in ND. clear - ND. induction p as [|a p IH]; [constructor|]. inversion ND; subst. constructor; auto.
      intros H. apply H1. apply in_app_iff. auto.
    + intros m l. rewrite <- (term_ops c k m l Hc Hk). rewrite <- HK. split.
      * intros H. apply in_map_iff in H. destruct H as (o & Eo & Ho). pose proof (HU o Ho) as E'. injection Eo as <- <-. rewrite <- E'.
        apply filter_In in Ho. rewrite E. apply in_app_iff. tauto.
      * intros H. apply in_map_iff. exists (OUpd k m l). split; auto. assert (H' : In (OUpd k m l) (filter (fun o => tgt o =? k) h)).
        { apply filter_In. split; auto. simpl. lia. }
        rewrite E, filter_app in H'. simpl in H'. rewrite F2, Nat.eqb_refl, Es in H'. apply in_app_iff in H'. destruct H' as [H'|[H'|[]]]; auto.
        unfold fin in H'. destruct (k =? Lp.[c]); discriminate.
Qed.

Lemma good_ichol h x (ord : list (nat * nat) -> Prop) : good h -> Lp.[n] <= length x ->
  (forall c k ml, c < n -> Lp.[c] <= k < Lp.[S c] -> terms_of n Lp Li c k ml ->
     filter (fun o => tgt o =? k) h = map (fun p => OUpd k (fst p) (snd p)) ml ++ [fin c k] -> ord ml) ->
  ichol fms quo root ord n Lp Li x (run h x).
Proof.
  intros HG HX HOrd. pose proof HG as (ND & HK & HO). unfold ichol. splits.
  - apply run_length.
  - intros k Hk. apply run_frame. intros o Ho Et. apply HK in Ho. destruct Ho as (i & Hi & Ho).
    destruct (touch_bounds n Lp Li CP o i Hi Ho) as (T1 & _). lia.
  - intros c k Hc Hk. destruct (good_entry h c k HG Hc Hk) as (ml & EF & HT). exists ml. splits; [auto|eauto|].
    cbv zeta. rewrite (run_fix h x k) at 1; auto; [|intros o; apply HK].
    rewrite EF, fold_left_app.
    assert (EF2 : forall v, fold_left (app_op (run h x)) (map (fun p => OUpd k (fst p) (snd p)) ml) v
                 = fold_left (fun v p => fms v (run h x).[fst p] (run h x).[snd p]) ml v).
    { clear. induction ml as [|p ml IH]; intros v; simpl; auto. }
    rewrite EF2. cbn [fold_left]. unfold fin. destruct (k =? Lp.[c]); reflexivity.
Qed.

(** * The serial code *)
Lemma flat_ops_good (T : list nat) : (forall i, i < n -> In i T) -> (forall i, In i T -> i < n) -> NoDup T ->
  (forall u v, edge n Lp Li u v -> before u v T) -> good (flat_map (ops Lp Li) T).
Proof.
  intros H1 H2 H3 H4. assert (ND : NoDup (flat_map (ops Lp Li) T)).
  { apply nodup_flat_map; auto; [intros a Ha; eapply ops_nodup; eauto|]. intros a b o Ha Hb. eapply owner_unique; eauto. }
  unfold good. splits; auto.
  - intros o. rewrite in_flat_map. split; intros (i & Hi & Ho); exists i; split; auto.
  - intros o o' Hb HM. assert (In o (flat_map (ops Lp Li) T) /\ In o' (flat_map (ops Lp Li) T)) as (Ho & Ho').
    { destruct Hb as (a & b & c & ->). split; apply in_app_iff; right; [now left|right; apply in_app_iff; right; now left]. }
    apply in_flat_map in Ho, Ho'. destruct Ho as (v & Hv & Ho), Ho' as (u & Hu & Ho').
    apply (before_asym o o' _ ND Hb). destruct (must_order n Lp Li CP o' o u v) as [He|(-> & Hbe)]; auto.
    + eapply before_flat_map; eauto.
    + eapply before_flat_map1; eauto.
Qed.

Definition serial_ops : list icop := flat_map (ops Lp Li) (seq 0 n).

Lemma serial_good : good serial_ops.
Proof.
  apply flat_ops_good.
  - intros i Hi. apply in_seq. lia.
  - intros i Hi. apply in_seq in Hi. lia.
  - apply seq_NoDup.
  - intros u v He. pose proof CP as ((W1 & W2 & W3 & W4 & W5) & LT & _). pose proof (LT _ _ He). destruct He as (Hu & (j & Hj & <-) & _).
    destruct (ic_index n Lp Li CP u j Hu) as (B & _); [lia|]. apply before_seq; lia.
Qed.

Lemma serial_by_column c k ml : c < n -> Lp.[c] <= k < Lp.[S c] -> terms_of n Lp Li c k ml ->
  filter (fun o => tgt o =? k) serial_ops = map (fun p => OUpd k (fst p) (snd p)) ml ++ [fin c k] -> by_column ml.
Proof.
  intros Hc Hk (ND & HT) EF. unfold by_column.
  apply before_sorted. intros m m' Hb.
  (* positions in map fst ml come from pairs *)
  destruct Hb as (a & b & r & Eb). apply map_eq_app in Eb. destruct Eb as (la & lr & -> & <- & Eb).
  destruct lr as [|p lr]; [discriminate|]. simpl in Eb. injection Eb as <- Eb. apply map_eq_app in Eb. destruct Eb as (lb & lr' & -> & <- & Eb).
  destruct lr' as [|p' lr']; [discriminate|]. injection Eb as <- <-.
  assert (BF : before (OUpd k (fst p) (snd p)) (OUpd k (fst p') (snd p')) serial_ops).
  { apply (before_filter_inv (fun o => tgt o =? k)). rewrite EF. apply before_app_l.
    apply (before_map (fun p => OUpd k (fst p) (snd p))). exists la, lb, lr'. reflexivity. }
  destruct serial_good as (NDs & HK & _).
  assert (Hp : In p (la ++ p :: lb ++ p' :: lr')) by (apply in_app_iff; right; now left).
  assert (Hp' : In p' (la ++ p :: lb ++ p' :: lr')) by (apply in_app_iff; right; right; apply in_app_iff; right; now left).
  destruct p as [m l], p' as [m' l']. apply HT in Hp, Hp'. cbn [fst snd] in *. pose proof Hp as T1. pose proof Hp' as T2.
  destruct Hp as (u & Hu & Huc & Hm & Hl & Em & El), Hp' as (u' & Hu' & Huc' & Hm' & Hl' & Em' & El').
  apply (term_ops c k) in T1, T2; auto. destruct T1 as (v & Hv & T1), T2 as (v' & Hv' & T2).
  assert (v = u). { pose proof (home_col n Lp Li CP _ _ Hv T1). simpl in *. apply (ic_unique n Lp Li CP v u m); auto. }
  assert (v' = u'). { pose proof (home_col n Lp Li CP _ _ Hv' T2). simpl in *. apply (ic_unique n Lp Li CP v' u' m'); auto. }
  subst v v'. destruct (lt_eq_lt_dec u u') as [[Hlt| <-]|Hlt].
  - pose proof (ic_mono n Lp Li CP u u' Hlt Hu'). lia.
  - exfalso. assert (m = m') as <- by (apply (ic_inj n Lp Li CP u); auto; congruence).
    assert (l = l') as <- by (apply (ic_inj n Lp Li CP u); auto; congruence). now apply (before_asym _ _ _ NDs BF).
  - exfalso. apply (before_asym _ _ _ NDs BF). eapply (before_flat_map (ops Lp Li) u' u); eauto. apply before_seq; lia.
Qed.

Lemma run_ops_col i x : i < n -> Lp.[n] <= length x -> ic0_col fms quo root Lp Li i x = Ok (run (ops Lp Li i) x).
Proof.
  intros Hi HX. destruct (ic_bounds n Lp Li CP i Hi) as (B1 & B2 & B3).
  assert (G : wp (ic0_col fms quo root Lp Li i x) (eq (run (ops Lp Li i) x))).
  2:{ apply wp_ok in G. destruct G as (y & -> & ->). reflexivity. }
  unfold ic0_col. apply wp_bind. apply wp_rd; [lia|]. apply wp_bind. apply wp_rd; [lia|]. apply wp_bind. apply wp_rd; [lia|].
  apply wp_bind. apply wp_wr; [lia|]. apply wp_bind. apply wp_rd; [lia|].
  change (upd x Lp.[i] (quo x.[Lp.[i]] (root x.[Lp.[i]]))) with (run [ORoot Lp.[i]] x).
  set (x1 := run [ORoot Lp.[i]] x). assert (X1 : length x1 = length x) by apply run_length.
  apply wp_bind.
  apply (wp_for (fun j x => x = run (map (fun m => ODiv m Lp.[i]) (seq (S Lp.[i]) (j - S Lp.[i]))) x1)); [lia|now rewrite Nat.sub_diag| |].
  { intros m z Hm ->. set (z := run _ x1). assert (length z = length x) as Lz by (unfold z; rewrite run_length; auto).
    apply wp_bind. apply wp_rd; [lia|]. apply wp_bind. apply wp_rd; [lia|]. apply wp_wr; [lia|].
    replace (S m - S Lp.[i]) with (m - S Lp.[i] + 1) by lia. rewrite seq_app, map_app, run_app. fold z.
    replace (S Lp.[i] + (m - S Lp.[i])) with m by lia. reflexivity. }
  intros x2 Ex2. assert (X2 : length x2 = length x) by (rewrite Ex2, run_length; auto).
  apply (wp_for (fun j z => z = run (flat_map (upds_m Lp Li Lp.[S i]) (seq (S Lp.[i]) (j - S Lp.[i]))) x2)); [lia|now rewrite Nat.sub_diag| |].
  2:{ intros z ->. unfold ops. change (ORoot Lp.[i] :: ?r) with ([ORoot Lp.[i]] ++ r). rewrite !run_app. fold x1.
      unfold divs. rewrite <- Ex2. reflexivity. }
  intros m z Hm ->. destruct (ic_index n Lp Li CP i m Hi) as (M1 & M2 & M3); [lia|]. destruct (ic_bounds n Lp Li CP _ M1) as (C1 & C2 & C3).
  set (z := run _ x2). assert (Lz : length z = length x) by (unfold z; rewrite run_length; auto).
  apply wp_bind. apply wp_rd; [lia|]. apply wp_bind. apply wp_rd; [lia|]. apply wp_bind. apply wp_rd; [lia|].
  replace (S m - S Lp.[i]) with (m - S Lp.[i] + 1) by lia. rewrite seq_app, flat_map_app, run_app. fold z.
  replace (S Lp.[i] + (m - S Lp.[i])) with m by lia.
  apply (wp_for (fun k w => w = run (flat_map (upds_mk Li Lp.[S i] m) (seq Lp.[Li.[m]] (k - Lp.[Li.[m]]))) z)); [lia|now rewrite Nat.sub_diag| |].
  2:{ intros w ->. cbn [flat_map seq]. now rewrite app_nil_r. }
  intros k w Hk ->. set (w := run _ z). assert (Lw : length w = length x) by (unfold w; rewrite run_length; auto).
  destruct (ic_index n Lp Li CP Li.[m] k M1) as (K1 & K2 & K3); [lia|].
  replace (S k - Lp.[Li.[m]]) with (k - Lp.[Li.[m]] + 1) by lia. rewrite seq_app, flat_map_app, run_app. fold w.
  replace (Lp.[Li.[m]] + (k - Lp.[Li.[m]])) with k by lia. cbn [flat_map seq]. rewrite app_nil_r.
  set (F := fun j => map (OUpd k m) (filter (fun l => Li.[l] =? Li.[k]) (seq m (j - m)))).
  assert (FS : forall j, m <= j -> F (S j) = F j ++ if Li.[j] =? Li.[k] then [OUpd k m j] else []).
  { intros j Hj. unfold F. replace (S j - m) with (j - m + 1) by lia. rewrite seq_app, filter_app, map_app. f_equal.
    simpl. replace (m + (j - m)) with j by lia. now destruct (Li.[j] =? Li.[k]). }
  apply (wp_forb (fun j v => v = run (F j) w)); [lia|unfold F; now rewrite Nat.sub_diag| |].
  2:{ intros s ->. reflexivity. }
  intros l v Hl ->. destruct (ic_index n Lp Li CP i l Hi) as (L1 & L2 & L3); [lia|]. specialize (FS l ltac:(lia)).
  set (v := run (F l) w) in *. assert (Lv : length v = length x) by (unfold v; rewrite run_length; auto).
  apply wp_bind. apply wp_rd; [lia|]. apply wp_bind. apply wp_rd; [lia|].
  destruct (Nat.eqb_spec Li.[l] Li.[k]) as [E|E].
  - apply wp_bind. apply wp_rd; [lia|]. apply wp_bind. apply wp_rd; [lia|]. apply wp_bind. apply wp_rd; [lia|]. apply wp_bind. apply wp_wr; [lia|].
    cbn [wp fst snd]. rewrite FS, run_app. reflexivity.
  - rewrite app_nil_r in FS. cbn [wp fst snd]. destruct (Li.[k] <? Li.[l]) eqn:Eb; [|now rewrite FS].
    assert (G : upds_mk Li Lp.[S i] m k = F l); [|now rewrite G].
    unfold F, upds_mk. f_equal. replace (Lp.[S i] - m) with ((l - m) + (Lp.[S i] - l)) by lia. rewrite seq_app, filter_app.
    replace (m + (l - m)) with l by lia.
    assert (G : filter (fun l0 => Li.[l0] =? Li.[k]) (seq l (Lp.[S i] - l)) = []).
    { destruct (filter _ (seq l (Lp.[S i] - l))) as [|z' r] eqn:Ef; auto. exfalso.
      assert (In z' (z' :: r)) as Hz by now left. rewrite <- Ef in Hz. apply filter_In in Hz. destruct Hz as (Hz & Ez). rewrite in_seq in Hz.
      destruct CP as (_ & _ & SC & _). destruct (Nat.eq_dec z' l) as [->|]; [lia|]. specialize (SC i l z' Hi). lia. }
    now rewrite G, app_nil_r.
Qed.

Lemma ic0_csc_run x : Lp.[n] <= length x -> ic0_csc fms quo root n Lp Li x = Ok (run serial_ops x).
Proof.
  intros HX. assert (G : wp (ic0_csc fms quo root n Lp Li x) (eq (run serial_ops x))).
  2:{ apply wp_ok in G. destruct G as (y & -> & ->). reflexivity. }
  apply (wp_for (fun j z => z = run (flat_map (ops Lp Li) (seq 0 j)) x)); [lia|reflexivity| |intros s ->; reflexivity].
  intros i z Hi ->. rewrite run_ops_col; [|lia|rewrite run_length; lia]. cbn [wp].
  replace (S i) with (i + 1) by lia. rewrite seq_app, flat_map_app, run_app. cbn [flat_map seq Nat.add]. now rewrite app_nil_r.
Qed.

(** * If subtractions commute the factor is unique *)
Lemma ichol_unique ord ord' x y y' : (forall a b c d e, fms (fms a b c) d e = fms (fms a d e) b c) ->
  ichol fms quo root ord n Lp Li x y -> ichol fms quo root ord' n Lp Li x y' -> y = y'.
Proof.
  intros C (L1 & O1 & E1) (L2 & O2 & E2). apply list_ext; [congruence|]. intros k _.
  destruct (le_lt_dec Lp.[n] k) as [Hk|Hk]; [rewrite O1, O2; auto|].
  assert (G : forall c, c < n -> forall k, Lp.[c] <= k < Lp.[S c] -> y.[k] = y'.[k]).
  { clear k Hk. intros c. induction c as [c IH] using lt_wf_ind. intros Hc.
    assert (S1 : forall k, Lp.[c] <= k < Lp.[S c] -> forall ml ml', terms_of n Lp Li c k ml -> terms_of n Lp Li c k ml' ->
       fold_left (fun v p => fms v y.[fst p] y.[snd p]) ml x.[k] = fold_left (fun v p => fms v y'.[fst p] y'.[snd p]) ml' x.[k]).
    { intros k Hk ml ml' (N1 & T1) (N2 & T2). rewrite (fold_left_perm _ ml ml').
      - apply fold_left_ext_in. intros a [m l] Hp. apply T2 in Hp. destruct Hp as (u & Hu & Huc & Hm & Hl & _). cbn [fst snd].
        rewrite (IH u Huc Hu m Hm), (IH u Huc Hu l Hl). reflexivity.
      - intros. apply C.
      - apply NoDup_Permutation; auto. intros [m l]. rewrite T1, T2. tauto. }
    destruct (ic_bounds n Lp Li CP c Hc) as (B & _).
    assert (D : y.[Lp.[c]] = y'.[Lp.[c]]).
    { destruct (E1 c Lp.[c] Hc) as (ml & T1 & _ & ->); [lia|]. destruct (E2 c Lp.[c] Hc) as (ml' & T2 & _ & ->); [lia|].
      rewrite Nat.eqb_refl. rewrite (S1 Lp.[c] ltac:(lia) ml ml'); auto. }
    intros k Hk. destruct (E1 c k Hc Hk) as (ml & T1 & _ & ->). destruct (E2 c k Hc Hk) as (ml' & T2 & _ & ->). rewrite D, (S1 k Hk ml ml'); auto. }
  pose proof CP as ((W1 & W2 & W3 & W4 & W5) & _). destruct (bucket_exists (aget Lp) n k) as (c & Hc & Hkc); [lia|lia|]. eapply G; eauto.
Qed.

End Hist.
