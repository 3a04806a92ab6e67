(** Proofs about the incomplete Cholesky kernels: the operations of a column, their order. *)
From Coq Require Import ZifyBool ZifyNat Permutation Sorting.Sorted.
From Verif Require Import Base Lib Lib2 Spec SpecIC M_SpTRSV M_IC0 L_SpTRSV L_Post.

#[global] Instance Dflt_icop : Dflt icop := ORoot 0.
#[global] Instance Dflt_ipc {V} : Dflt (ipc V) := IStart.

(** * Lists *)
Lemma nodup_app {A} (l l' : list A) : NoDup l -> NoDup l' -> (forall x, In x l -> ~ In x l') -> NoDup (l ++ l').
Proof.
  induction l as [|a l IH]; intros H1 H2 H3; [auto|]. inversion H1; subst. cbn [app]. constructor.
  - rewrite in_app_iff. intros [H|H]; [auto|]. apply (H3 a); auto. now left.
  - apply IH; auto. intros x Hx. apply H3. now right.
Qed.

Lemma nodup_flat_map {A B} (f : A -> list B) l : NoDup l -> (forall a, In a l -> NoDup (f a)) ->
  (forall a b o, In a l -> In b l -> In o (f a) -> In o (f b) -> a = b) -> NoDup (flat_map f l).
Proof.
  induction l as [|a l IH]; intros ND HF HD; simpl; [constructor|]. inversion ND as [|? ? Hn ND']; subst.
  apply nodup_app; [apply HF; now left|apply IH; auto|].
  - intros b Hb. apply HF. now right.
  - intros b b' o Hb Hb'. apply HD; now right.
  - intros o Ho Ho'. apply in_flat_map in Ho'. destruct Ho' as (b & Hb & Hob). apply Hn.
    rewrite (HD a b o); auto; [now left|now right].
Qed.

Lemma nodup_nth {A} (l : list A) i j x : NoDup l -> nth_error l i = Some x -> nth_error l j = Some x -> i = j.
Proof. intros ND Hi Hj. eapply NoDup_nth_error; eauto; [apply nth_error_Some|]; congruence. Qed.

Lemma before_nth {A} (x y : A) l i j : NoDup l -> before x y l -> nth_error l i = Some x -> nth_error l j = Some y -> i < j.
Proof.
  intros ND (a & b & c & ->) Hi Hj.
  assert (i = length a). { eapply nodup_nth; eauto. rewrite nth_error_app2, Nat.sub_diag by lia. reflexivity. }
  assert (j = length a + S (length b)).
  { eapply nodup_nth; eauto. rewrite nth_error_app2 by lia. replace (length a + S (length b) - length a) with (S (length b)) by lia.
    simpl. rewrite nth_error_app2, Nat.sub_diag by lia. reflexivity. }
  lia.
Qed.

Lemma nth_before {A} (x y : A) l i j : i < j -> nth_error l i = Some x -> nth_error l j = Some y -> before x y l.
Proof.
  intros Hij Hi Hj. apply nth_error_split in Hi. destruct Hi as (a & r & -> & <-).
  rewrite nth_error_app2 in Hj by lia. destruct (j - length a) as [|d] eqn:E; [lia|]. simpl in Hj.
  apply nth_error_split in Hj. destruct Hj as (b & c & -> & _). exists a, b, c. reflexivity.
Qed.

(** * The operations of a column *)
Section Ops.
Variables (n : nat) (Lp Li : list nat).
Hypothesis CP : chol_pattern n Lp Li.

Definition upds_mk (e m k : nat) : list icop := map (OUpd k m) (filter (fun l => Li.[l] =? Li.[k]) (seq m (e - m))).
Definition upds_m (e m : nat) : list icop := flat_map (upds_mk e m) (seq Lp.[Li.[m]] (Lp.[S Li.[m]] - Lp.[Li.[m]])).
Definition upds (i : nat) : list icop := flat_map (upds_m Lp.[S i]) (seq (S Lp.[i]) (Lp.[S i] - S Lp.[i])).
Definition divs (i : nat) : list icop := map (fun m => ODiv m Lp.[i]) (seq (S Lp.[i]) (Lp.[S i] - S Lp.[i])).
Definition ops (i : nat) : list icop := ORoot Lp.[i] :: divs i ++ upds i.

Lemma ic_bounds i : i < n -> Lp.[i] < Lp.[S i] /\ Lp.[S i] <= Lp.[n] /\ S i < length Lp.
Proof.
  destruct CP as ((W1 & W2 & W3 & W4 & W5) & LT & SC & DF). intros Hi. destruct (DF i Hi) as (D1 & _). splits; auto; [|lia].
  apply (mono_le (aget Lp) n); auto; lia.
Qed.

Lemma ic_index i j : i < n -> j < Lp.[S i] -> Li.[j] < n /\ j < length Li /\ j < Lp.[n].
Proof.
  intros Hi Hj. destruct (ic_bounds i Hi) as (_ & H & _). destruct CP as ((W1 & W2 & W3 & W4 & W5) & _).
  splits; [apply W5; lia|lia|lia].
Qed.

Lemma ic_unique i j k : i < n -> j < n -> Lp.[i] <= k < Lp.[S i] -> Lp.[j] <= k < Lp.[S j] -> i = j.
Proof. destruct CP as ((W1 & W2 & W3 & W4 & W5) & _). intros. eapply (bucket_unique (aget Lp) n); eauto. Qed.

Lemma ic_below i m : i < n -> Lp.[i] < m < Lp.[S i] -> i < Li.[m] /\ edge n Lp Li i Li.[m].
Proof.
  intros Hi Hm. destruct CP as (W & LT & SC & DF). destruct (DF i Hi) as (D1 & D2 & D3).
  assert (edge n Lp Li i Li.[m]). { split; [exact Hi|split]; [exists m; split; auto; lia|]. intros E. apply (D3 m Hm). auto. }
  split; auto.
Qed.

Lemma ic_mono i j : i < j -> j < n -> Lp.[S i] <= Lp.[j].
Proof. destruct CP as ((W1 & W2 & W3 & W4 & W5) & _). intros. apply (mono_le (aget Lp) n); auto; lia. Qed.

Lemma ic_inj i k k' : i < n -> Lp.[i] <= k < Lp.[S i] -> Lp.[i] <= k' < Lp.[S i] -> Li.[k] = Li.[k'] -> k = k'.
Proof.
  intros Hi Hk Hk' E. destruct CP as (_ & _ & SC & _). destruct (lt_eq_lt_dec k k') as [[H|H]|H]; auto.
  - specialize (SC i k k' Hi). lia.
  - specialize (SC i k' k Hi). lia.
Qed.

Lemma In_upds k m l i o : o = OUpd k m l -> In o (upds i) <->
  Lp.[i] < m /\ m <= l < Lp.[S i] /\ Lp.[Li.[m]] <= k < Lp.[S Li.[m]] /\ Li.[l] = Li.[k].
Proof.
  intros ->. unfold upds. rewrite in_flat_map. split.
  - intros (m' & Hm & H). apply in_flat_map in H. destruct H as (k' & Hk & H). apply in_map_iff in H.
    destruct H as (l' & E & H). injection E as -> -> ->. apply filter_In in H. destruct H as (H & HL). rewrite in_seq in *. splits; lia.
  - intros (H1 & H2 & H3 & H4). exists m. rewrite in_seq. split; [lia|]. apply in_flat_map. exists k. rewrite in_seq. split; [lia|].
    apply in_map. apply filter_In. rewrite in_seq. split; lia.
Qed.

Lemma upds_form i o : In o (upds i) -> exists k m l, o = OUpd k m l.
Proof.
  intros H. apply in_flat_map in H. destruct H as (m & _ & H). apply in_flat_map in H. destruct H as (k & _ & H).
  apply in_map_iff in H. destruct H as (l & <- & _). eauto.
Qed.

Lemma divs_form i o : In o (divs i) -> exists m, o = ODiv m Lp.[i] /\ Lp.[i] < m < Lp.[S i].
Proof. intros H. apply in_map_iff in H. destruct H as (m & <- & H). rewrite in_seq in H. exists m. split; auto; lia. Qed.

Lemma In_ops o i : In o (ops i) <->
  match o with
  | ORoot d => d = Lp.[i]
  | ODiv m d => d = Lp.[i] /\ Lp.[i] < m < Lp.[S i]
  | OUpd k m l => Lp.[i] < m /\ m <= l < Lp.[S i] /\ Lp.[Li.[m]] <= k < Lp.[S Li.[m]] /\ Li.[l] = Li.[k]
  end.
Proof.
  unfold ops. simpl. rewrite in_app_iff. destruct o as [d|m d|k m l].
  - split; [|intros ->; now left]. intros [E|[H|H]]; [congruence| |].
    + apply divs_form in H. destruct H as (? & ? & _). discriminate.
    + apply upds_form in H. destruct H as (? & ? & ? & ?). discriminate.
  - split.
    + intros [E|[H|H]]; [discriminate| |].
      * apply divs_form in H. destruct H as (m' & E & H). injection E as -> ->. auto.
      * apply upds_form in H. destruct H as (? & ? & ? & ?). discriminate.
    + intros (-> & H). right. left. apply in_map_iff. exists m. rewrite in_seq. split; auto; lia.
  - rewrite <- (In_upds k m l i _ eq_refl). split; auto. intros [E|[H|H]]; [discriminate| |auto].
    apply divs_form in H. destruct H as (? & ? & _). discriminate.
Qed.

(** position that tells which column an operation belongs to *)
Definition home (o : icop) : nat := match o with ORoot d => d | ODiv m _ => m | OUpd _ m _ => m end.

Lemma home_col o i : i < n -> In o (ops i) -> Lp.[i] <= home o < Lp.[S i].
Proof. intros Hi H. rewrite In_ops in H. destruct (ic_bounds i Hi). destruct o; simpl in *; lia. Qed.

Lemma owner_unique o i j : i < n -> j < n -> In o (ops i) -> In o (ops j) -> i = j.
Proof. intros Hi Hj H H'. eapply ic_unique; eauto; eapply home_col; eauto. Qed.

Lemma ops_nodup i : i < n -> NoDup (ops i).
Proof.
  intros Hi. unfold ops. constructor.
  - intros H. apply in_app_iff in H. destruct H as [H|H].
    + apply divs_form in H. destruct H as (? & ? & _). discriminate.
    + apply upds_form in H. destruct H as (? & ? & ? & ?). discriminate.
  - apply nodup_app.
    + apply FinFun.Injective_map_NoDup; [|apply seq_NoDup]. intros a b E. congruence.
    + unfold upds. apply nodup_flat_map; [apply seq_NoDup| |].
      * intros m Hm. apply nodup_flat_map; [apply seq_NoDup| |].
        -- intros k Hk. apply FinFun.Injective_map_NoDup; [intros a b E; congruence|]. apply NoDup_filter, seq_NoDup.
        -- intros k k' o _ _ H H'. apply in_map_iff in H, H'. destruct H as (? & <- & _), H' as (? & E & _). congruence.
      * intros m m' o _ _ H H'. apply in_flat_map in H, H'. destruct H as (? & _ & H), H' as (? & _ & H').
        apply in_map_iff in H, H'. destruct H as (? & <- & _), H' as (? & E & _). congruence.
    + intros o H H'. apply divs_form in H. apply upds_form in H'. destruct H as (? & -> & _), H' as (? & ? & ? & ?). discriminate.
Qed.

(** * The order operations must respect *)
Definition ext (o : icop) : list nat := match o with ORoot _ => [] | ODiv _ d => [d] | OUpd _ m l => [m; l] end.
Definition is_upd (o : icop) : bool := match o with OUpd _ _ _ => true | _ => false end.

(** [o'] changes an operand of [o], or is an update of the element [o] finishes *)
Definition must (o' o : icop) : Prop :=
  In (tgt o') (ext o) \/ (tgt o' = tgt o /\ is_upd o' = true /\ is_upd o = false).

Lemma tgt_col k m l u v : u < n -> v < n -> In (OUpd k m l) (ops u) -> Lp.[v] <= k < Lp.[S v] -> edge n Lp Li u v.
Proof.
  intros Hu Hv H Hk. rewrite In_ops in H. destruct H as (H1 & H2 & H3 & H4). destruct (ic_below u m Hu) as (B1 & B2); [lia|].
  destruct (ic_index u m Hu) as (B3 & _); [lia|]. now rewrite <- (ic_unique Li.[m] v k).
Qed.

Lemma must_order o' o u v : u < n -> v < n -> In o' (ops u) -> In o (ops v) -> must o' o ->
  edge n Lp Li u v \/ (u = v /\ before o' o (ops u)).
Proof.
  intros Hu Hv H' H HM. pose proof (home_col _ _ Hu H') as Hh'. pose proof (home_col _ _ Hv H) as Hh.
  destruct (ic_bounds u Hu) as (Bu & _). destruct (ic_bounds v Hv) as (Bv & _).
  pose proof H' as J'. pose proof H as J. rewrite In_ops in J', J.
  destruct o' as [d'|m' d'|k' m' l'].
  - destruct HM as [HM|(_ & ? & _)]; [|discriminate]. right. destruct o as [d|m d|k m l]; simpl in *; [contradiction| |].
    + assert (u = v) as <-. { apply (ic_unique u v d'); auto; lia. } split; auto. destruct J as (-> & J).
      unfold ops. rewrite J'. assert (In (ODiv m Lp.[u]) (divs u ++ upds u)).
      { apply in_app_iff. left. apply in_map_iff. exists m. rewrite in_seq. split; auto; lia. }
      apply in_split in H0. destruct H0 as (a & b & ->). exists [], a, b. reflexivity.
    + exfalso. assert (u = v) as <- by (apply (ic_unique u v d'); auto; lia). lia.
  - destruct HM as [HM|(_ & ? & _)]; [|discriminate]. right. destruct o as [d|m d|k m l]; simpl in *; [contradiction| |].
    + exfalso. assert (u = v) as <- by (apply (ic_unique u v m'); auto; lia). lia.
    + assert (u = v) as <- by (apply (ic_unique u v m'); auto; lia). split; auto. unfold ops.
      change (ORoot Lp.[u] :: divs u ++ upds u) with ([ORoot Lp.[u]] ++ divs u ++ upds u). apply before_app_r, before_app.
      * destruct J' as (-> & J'). apply in_map_iff. exists m'. rewrite in_seq. split; auto; lia.
      * apply (In_upds k m l u _ eq_refl). auto.
  - left. apply (tgt_col k' m' l'); auto. destruct o as [d|m d|k m l]; simpl in *.
    + destruct HM as [[]|(E & _)]. simpl in E. lia.
    + destruct HM as [[E|[]]|(E & _)]; simpl in *; lia.
    + destruct HM as [[E|[E|[]]]|(_ & _ & ?)]; try discriminate; simpl in *; lia.
Qed.

(** the finishing operation of an element is unique *)
Lemma fin_unique o o' u v : u < n -> v < n -> In o (ops u) -> In o' (ops v) -> is_upd o = false -> is_upd o' = false ->
  tgt o = tgt o' -> o = o'.
Proof.
  intros Hu Hv H H' E E' ET. pose proof (home_col _ _ Hu H) as Hh. pose proof (home_col _ _ Hv H') as Hh'.
  assert (u = v). { apply (ic_unique u v (home o)); auto. destruct o, o'; simpl in *; try discriminate; lia. }
  subst v. rewrite In_ops in H, H'. destruct o, o'; simpl in *; try discriminate; f_equal; lia.
Qed.

(** an operation does not change its own operands *)
Lemma self_ext o u : u < n -> In o (ops u) -> ~ In (tgt o) (ext o).
Proof.
  intros Hu H. rewrite In_ops in H. destruct o as [d|m d|k m l]; simpl; [tauto|lia|].
  destruct H as (H1 & H2 & H3 & H4). destruct (ic_below u m Hu) as (B1 & _); [lia|]. destruct (ic_index u m Hu) as (B3 & _); [lia|].
  pose proof (ic_mono u Li.[m] B1 B3). lia.
Qed.

Lemma src_cases o : (src1 o = tgt o /\ is_upd o = false \/ In (src1 o) (ext o)) /\ (src2 o = tgt o /\ is_upd o = false \/ In (src2 o) (ext o)).
Proof. destruct o; simpl; tauto. Qed.

Lemma touch_bounds o u : u < n -> In o (ops u) -> tgt o < Lp.[n] /\ src1 o < Lp.[n] /\ src2 o < Lp.[n].
Proof.
  intros Hu H. rewrite In_ops in H. destruct (ic_bounds u Hu) as (B & B' & _). destruct o as [d|m d|k m l]; simpl; try lia.
  destruct H as (H1 & H2 & H3 & H4). destruct (ic_index u m Hu) as (B3 & _); [lia|]. destruct (ic_bounds Li.[m] B3) as (_ & B4 & _). lia.
Qed.

(** * The model lists exactly these operations *)
Lemma col_ops_wp brk i (Q : list icop -> Prop) : i < n -> Q (ops i) -> wp (col_ops brk Lp Li i) Q.
Proof.
  intros Hi HQ. destruct (ic_bounds i Hi) as (B1 & B2 & B3). unfold col_ops.
  apply wp_bind. apply wp_rd; [lia|]. apply wp_bind. apply wp_rd; [lia|].
  apply wp_bind. apply (wp_for (fun j acc => acc = map (fun m => ODiv m Lp.[i]) (seq (S Lp.[i]) (j - S Lp.[i])))); [lia|now rewrite Nat.sub_diag| |].
  { intros m acc Hm ->. cbn [wp]. replace (S m - S Lp.[i]) with (m - S Lp.[i] + 1) by lia. rewrite seq_app, map_app. simpl. do 3 f_equal. lia. }
  intros ds ->.
  apply wp_bind. apply (wp_for (fun j acc => acc = flat_map (upds_m Lp.[S i]) (seq (S Lp.[i]) (j - S Lp.[i])))); [lia|now rewrite Nat.sub_diag| |].
  2:{ intros us ->. exact HQ. }
  intros m acc Hm ->. destruct (ic_index i m Hi) as (M1 & M2 & M3); [lia|]. destruct (ic_bounds _ M1) as (C1 & C2 & C3).
  apply wp_bind. apply wp_rd; [lia|]. apply wp_bind. apply wp_rd; [lia|]. apply wp_bind. apply wp_rd; [lia|].
  set (A := flat_map (upds_m Lp.[S i]) (seq (S Lp.[i]) (m - S Lp.[i]))).
  apply (wp_for (fun k acc => acc = A ++ flat_map (upds_mk Lp.[S i] m) (seq Lp.[Li.[m]] (k - Lp.[Li.[m]])))); [lia|now rewrite Nat.sub_diag; simpl; rewrite app_nil_r| |].
  2:{ intros us ->. replace (S m - S Lp.[i]) with (m - S Lp.[i] + 1) by lia. rewrite seq_app, flat_map_app. fold A. f_equal.
      simpl. replace (S (Lp.[i] + (m - S Lp.[i]))) with m by lia. now rewrite app_nil_r. }
  intros k acc Hk ->. set (B := A ++ flat_map (upds_mk Lp.[S i] m) (seq Lp.[Li.[m]] (k - Lp.[Li.[m]]))).
  assert (E : A ++ flat_map (upds_mk Lp.[S i] m) (seq Lp.[Li.[m]] (S k - Lp.[Li.[m]])) = B ++ upds_mk Lp.[S i] m k).
  { replace (S k - Lp.[Li.[m]]) with (k - Lp.[Li.[m]] + 1) by lia. rewrite seq_app, flat_map_app, app_assoc. fold B. f_equal.
    simpl. replace (Lp.[Li.[m]] + (k - Lp.[Li.[m]])) with k by lia. now rewrite app_nil_r. }
  rewrite E. clear E. destruct (ic_index Li.[m] k M1) as (K1 & K2 & K3); [lia|].
  set (F := fun j => B ++ map (OUpd k m) (filter (fun l => Li.[l] =? Li.[k]) (seq m (j - m)))).
  assert (FS : forall j, m <= j -> F (S j) = F j ++ if Li.[j] =? Li.[k] then [OUpd k m j] else []).
  { intros j Hj. unfold F. replace (S j - m) with (j - m + 1) by lia. rewrite seq_app, filter_app, map_app, app_assoc. f_equal.
    simpl. replace (m + (j - m)) with j by lia. now destruct (Li.[j] =? Li.[k]). }
  apply (wp_forb (fun j acc => acc = F j)); [lia|unfold F; now rewrite Nat.sub_diag, app_nil_r| |].
  2:{ intros s ->. reflexivity. }
  intros l acc Hl ->. destruct (ic_index i l Hi) as (L1 & L2 & L3); [lia|].
  apply wp_bind. apply wp_rd; [lia|]. apply wp_bind. apply wp_rd; [lia|]. specialize (FS l ltac:(lia)).
  destruct (Nat.eqb_spec Li.[l] Li.[k]) as [E|E]; cbn [wp fst snd].
  - now rewrite FS.
  - rewrite app_nil_r in FS. destruct (brk && (Li.[k] <? Li.[l])) eqn:Eb; cbn [fst snd]; [|auto].
    unfold F, upds_mk. f_equal. f_equal. replace (Lp.[S i] - m) with ((l - m) + (Lp.[S i] - l)) by lia. rewrite seq_app, filter_app.
    replace (m + (l - m)) with l by lia.
    assert (G : filter (fun l0 => Li.[l0] =? Li.[k]) (seq l (Lp.[S i] - l)) = []).
    { destruct (filter _ (seq l (Lp.[S i] - l))) as [|z r] eqn:Ef; auto. exfalso.
      assert (In z (z :: r)) as Hz by now left. rewrite <- Ef in Hz. apply filter_In in Hz. destruct Hz as (Hz & Ez). rewrite in_seq in Hz.
      destruct CP as (_ & _ & SC & _). destruct (Nat.eq_dec z l) as [->|]; [lia|]. specialize (SC i l z Hi). lia. }
    now rewrite G, app_nil_r.
Qed.

Definition good_prog (P : prog) : Prop := forall L T i, In L P -> In T L -> In i T -> i < n.

Lemma cols_ops_wp brk T (Q : list icop -> Prop) : (forall i, In i T -> i < n) -> Q (flat_map ops T) -> wp (cols_ops brk Lp Li T) Q.
Proof.
  intros HT HQ. unfold cols_ops. assert (G : forall acc, wp (foreach T (fun i acc => o <- col_ops brk Lp Li i ;; Ok (acc ++ o)) acc) (eq (acc ++ flat_map ops T))).
  { clear HQ. induction T as [|i T IH]; intros acc; cbn [foreach]; [simpl; now rewrite app_nil_r|].
    apply wp_bind. apply wp_bind. apply col_ops_wp; [apply HT; now left|]. cbn [wp]. eapply wp_mono; [apply IH|].
    - intros j Hj. apply HT. now right.
    - intros s <-. cbn [flat_map]. now rewrite app_assoc. }
  eapply wp_mono; [apply G|]. intros s <-. exact HQ.
Qed.

Lemma level_ops_wp brk L (Q : list (list icop) -> Prop) : (forall T i, In T L -> In i T -> i < n) -> Q (map (flat_map ops) L) -> wp (level_ops brk Lp Li L) Q.
Proof.
  intros HT HQ. unfold level_ops. assert (G : forall acc, wp (foreach L (fun T acc => o <- cols_ops brk Lp Li T ;; Ok (acc ++ [o])) acc) (eq (acc ++ map (flat_map ops) L))).
  { clear HQ. induction L as [|T L IH]; intros acc; cbn [foreach]; [simpl; now rewrite app_nil_r|].
    apply wp_bind. apply wp_bind. apply cols_ops_wp; [intros i Hi; apply (HT T); auto; now left|]. cbn [wp]. eapply wp_mono; [apply IH|].
    - intros T' j HT' Hj. apply (HT T'); auto. now right.
    - intros s <-. simpl. now rewrite <- app_assoc. }
  eapply wp_mono; [apply G|]. intros s <-. exact HQ.
Qed.

Lemma ic_prog_ok brk P : good_prog P -> ic_prog brk Lp Li P = Ok (map (map (flat_map ops)) P).
Proof.
  intros HP. unfold ic_prog. assert (G : forall acc, wp (foreach P (fun L acc => o <- level_ops brk Lp Li L ;; Ok (acc ++ [o])) acc) (eq (acc ++ map (map (flat_map ops)) P))).
  { induction P as [|L P IH]; intros acc; cbn [foreach]; [simpl; now rewrite app_nil_r|].
    apply wp_bind. apply wp_bind. apply level_ops_wp; [intros T i HT Hi; apply (HP L T); auto; now left|]. cbn [wp]. eapply wp_mono; [apply IH|].
    - intros L' T' j HL' HT' Hj. apply (HP L' T'); auto. now right.
    - intros s <-. simpl. now rewrite <- app_assoc. }
  specialize (G []). apply wp_ok in G. destruct G as (r & -> & <-). reflexivity.
Qed.

End Ops.
