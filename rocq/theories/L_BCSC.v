(** The blocked functions follow the CSC functions on the graph of the blocks. *)
From Verif Require Import Base Lib Lib2 Spec SpecBCSC L_Util M_LevelSet L_LevelSet M_LBC L_LBC2 L_LBC4 L_LBC5 L_LBC6 L_Merge L_Metis2 M_LBCTree M_BCSC.
From Coq Require Import ZifyBool ZifyNat.

(** * Refinement *)
Definition ref {A} (m m' : res A) : Prop := forall a, m = Ok a -> m' = Ok a.

Lemma wp_ref {A} (m m' : res A) (Q : A -> Prop) : ref m m' -> wp m Q -> wp m' Q.
Proof. intros H W. apply wp_ok in W. destruct W as (a & E & HQ). rewrite (H a E). now apply wp_ret. Qed.
Lemma ref_refl {A} (m : res A) : ref m m. Proof. intros a E. exact E. Qed.
Lemma ref_bind {A B} (m m' : res A) (f f' : A -> res B) : ref m m' -> (forall a, m = Ok a -> ref (f a) (f' a)) -> ref (bind m f) (bind m' f').
Proof. intros H H' b E. destruct m as [a|e] eqn:Em; [|discriminate]. rewrite (H a eq_refl). simpl in *. now apply H'. Qed.
Lemma ref_same {A B} (m : res A) (f f' : A -> res B) : (forall a, m = Ok a -> ref (f a) (f' a)) -> ref (bind m f) (bind m f').
Proof. apply ref_bind, ref_refl. Qed.

Lemma ref_for_shift {S} a b a' b' (f g : nat -> S -> res S) s : b - a = b' - a' ->
  (forall t s, t < b - a -> ref (f (a + t) s) (g (a' + t) s)) -> ref (for_ a b f s) (for_ a' b' g s).
Proof.
  unfold for_. intros E. rewrite <- E. clear E. generalize (b - a) as k. clear b b'. intros k H. revert a a' s H.
  induction k as [|k IH]; intros a a' s H; simpl; [apply ref_refl|].
  apply ref_bind.
  - specialize (H 0 s ltac:(lia)). now rewrite !Nat.add_0_r in H.
  - intros s' _. apply IH. intros t s0 Ht. specialize (H (Datatypes.S t) s0 ltac:(lia)). now rewrite <- !Nat.add_succ_comm in H.
Qed.
Lemma ref_for {S} a b (f g : nat -> S -> res S) s : (forall i s, a <= i < b -> ref (f i s) (g i s)) -> ref (for_ a b f s) (for_ a b g s).
Proof. intros H. apply ref_for_shift; auto. intros t s' Ht. apply H. lia. Qed.

Lemma sim_while {S S'} (R : S -> S' -> Prop) c c' (f : S -> res S) (f' : S' -> res S') :
  (forall s s' b, R s s' -> c s = Ok b -> c' s' = Ok b) ->
  (forall s s' t, R s s' -> c s = Ok true -> f s = Ok t -> exists t', f' s' = Ok t' /\ R t t') ->
  forall k s s' t, R s s' -> while_ k c f s = Ok t -> exists t', while_ k c' f' s' = Ok t' /\ R t t'.
Proof.
  intros Hc Hf. induction k as [|k IH]; intros s s' t HR E; simpl in *; [discriminate|].
  destruct (c s) as [b|] eqn:Ec; [|discriminate]. rewrite (Hc s s' b HR Ec). simpl in *.
  destruct b; [|exists s'; split; [auto|congruence]].
  destruct (f s) as [u|] eqn:Ef; [|discriminate]. simpl in E. destruct (Hf s s' u HR Ec Ef) as (u' & Eu & HR'). rewrite Eu. simpl. eauto.
Qed.

Lemma sim_for {S S'} (R : S -> S' -> Prop) a b (f : nat -> S -> res S) (f' : nat -> S' -> res S') :
  (forall i s s' t, a <= i < b -> R s s' -> f i s = Ok t -> exists t', f' i s' = Ok t' /\ R t t') ->
  forall s s' t, R s s' -> for_ a b f s = Ok t -> exists t', for_ a b f' s' = Ok t' /\ R t t'.
Proof.
  unfold for_. remember (b - a) as k eqn:Ek. revert a Ek. induction k as [|k IH]; intros a Ek Hf s s' t HR E; simpl in *.
  - exists s'. split; [auto|congruence].
  - destruct (f a s) as [u|] eqn:Ef; [|discriminate]. simpl in E. destruct (Hf a s s' u ltac:(lia) HR Ef) as (u' & Eu & HR'). rewrite Eu. simpl.
    apply (IH (Datatypes.S a) ltac:(lia)) with (s := u); auto. intros. apply (Hf i s0 s'0); auto. lia.
Qed.

Lemma rd_Ok {A} (l : list A) `{Dflt A} i x : rd l i = Ok x -> i < length l /\ x = l.[i].
Proof.
  intros E. destruct (le_lt_dec (length l) i) as [L|L].
  - rewrite rd_oob in E by auto. discriminate.
  - rewrite rd_ok in E by auto. inversion E. auto.
Qed.

(** * The graph of the blocks *)
Section Blocks.
Variables (nb : nat) (b2c c2b Lip Li : list nat).
Hypothesis BK : blk_ok nb b2c c2b Lip Li.
Local Notation E := (bedge nb b2c c2b Lip Li).

Definition below (s : nat) : nat := Lip.[b2c.[s]] + (b2c.[S s] - b2c.[s]).
Definition bcnt (s : nat) : nat := Lip.[b2c.[S s]] - below s.
Definition brows (s : nat) : list nat := map (fun r => c2b.[Li.[r]]) (seq (below s) (bcnt s)).
Definition bcols : list (list nat) := map (fun s => s :: brows s) (seq 0 nb).
Definition gp : list nat := map (fun i => length (concat (firstn i bcols))) (seq 0 (S nb)).
Definition gi : list nat := concat bcols.

Lemma bcols_len : length bcols = nb. Proof. unfold bcols. now rewrite map_length, seq_length. Qed.
Lemma bcols_at s : s < nb -> bcols.[s] = s :: brows s.
Proof. intros H. unfold bcols. rewrite (aget_map (fun s => s :: brows s)) by (rewrite seq_length; auto). now rewrite aget_seq by auto. Qed.
Lemma brows_len s : length (brows s) = bcnt s. Proof. unfold brows. now rewrite map_length, seq_length. Qed.
Lemma brows_at s t : t < bcnt s -> (brows s).[t] = c2b.[Li.[below s + t]].
Proof. intros H. unfold brows. rewrite (aget_map (fun r => c2b.[Li.[r]])) by (rewrite seq_length; auto). now rewrite aget_seq by auto. Qed.
Lemma g_rep : rep bcols gp gi.
Proof.
  split; [|auto]. intros i Hi. rewrite bcols_len in Hi. unfold gp. rewrite (aget_map (fun i => length (concat (firstn i bcols)))) by (rewrite seq_length; lia).
  now rewrite aget_seq by lia.
Qed.
Lemma gp_len : length gp = nb + 1. Proof. unfold gp. rewrite map_length, seq_length. lia. Qed.
Lemma gp_S s : s < nb -> gp.[S s] = gp.[s] + S (bcnt s).
Proof.
  intros H. destruct g_rep as [R _]. rewrite !R by (rewrite bcols_len; lia). rewrite concat_firstn_S by (rewrite bcols_len; lia).
  rewrite app_length, bcols_at by auto. simpl. rewrite brows_len. lia.
Qed.
Lemma gi_at s t : s < nb -> t <= bcnt s -> gp.[s] + t < length gi /\ gi.[gp.[s] + t] = (s :: brows s).[t].
Proof.
  intros Hs Ht. pose proof (rep_slice bcols gp gi s g_rep (le_n _) ltac:(rewrite bcols_len; auto)) as R. rewrite bcols_at in R by auto.
  assert (L : gp.[S s] <= length gi).
  { destruct g_rep as [R1 _]. rewrite R1 by (rewrite bcols_len; lia). unfold gi. rewrite <- (firstn_skipn (S s) bcols) at 2. rewrite concat_app, app_length. lia. }
  pose proof (gp_S s Hs). split; [lia|]. rewrite <- R. rewrite aget_slice by lia. auto.
Qed.

Lemma b2c_le i j : i <= j -> j <= nb -> b2c.[i] <= b2c.[j].
Proof. apply (mono_le (aget b2c) nb). intros s Hs. pose proof (bk_inc _ _ _ _ _ BK s Hs). lia. Qed.
Lemma b2c_len s : s <= nb -> s < length b2c. Proof. pose proof (bk_b2c _ _ _ _ _ BK). lia. Qed.
Lemma lip_le i j : i <= j -> j <= nb -> Lip.[b2c.[i]] <= Lip.[b2c.[j]].
Proof. apply (mono_le (fun s => Lip.[b2c.[s]]) nb). intros s Hs. pose proof (bk_room _ _ _ _ _ BK s Hs). lia. Qed.
Lemma lip_len c : c <= b2c.[nb] -> c < length Lip. Proof. pose proof (bk_lip _ _ _ _ _ BK). lia. Qed.
Lemma row_blk c s : s <= nb -> b2c.[s] <= c < b2c.[nb] -> c < length c2b /\ s <= c2b.[c] < nb /\ b2c.[c2b.[c]] <= c < b2c.[S c2b.[c]].
Proof.
  intros Hs Hc. pose proof (bk_c2b _ _ _ _ _ BK). split; [lia|].
  destruct (bucket_exists (aget b2c) nb c) as (t & Ht & Hct); [rewrite (bk_0 _ _ _ _ _ BK); lia|lia|].
  rewrite (bk_of _ _ _ _ _ BK t c) by auto. split; [|auto]. split; [|auto].
  destruct (le_lt_dec s t) as [|L]; auto. pose proof (b2c_le (S t) s ltac:(lia) ltac:(lia)). lia.
Qed.
(** a position of block [s] *)
Lemma pos_len s r : s < nb -> r < Lip.[b2c.[S s]] -> r < length Li.
Proof. intros Hs Hr. pose proof (lip_le (S s) nb ltac:(lia) ltac:(lia)). pose proof (bk_li _ _ _ _ _ BK). lia. Qed.
Lemma below_le s : s < nb -> below s <= Lip.[b2c.[S s]]. Proof. apply (bk_room _ _ _ _ _ BK). Qed.
Lemma row_ok s t : s < nb -> t < bcnt s -> below s + t < length Li /\ b2c.[S s] <= Li.[below s + t] < b2c.[nb].
Proof.
  intros Hs Ht. pose proof (below_le s Hs). unfold bcnt in Ht. split; [apply (pos_len s); [auto|lia]|].
  apply (bk_row _ _ _ _ _ BK s); [auto|]. fold (below s). lia.
Qed.
Lemma brow_ok s t : s < nb -> t < bcnt s -> brow c2b Li (below s + t) = Ok (brows s).[t] /\ s < (brows s).[t] < nb.
Proof.
  intros Hs Ht. destruct (row_ok s t Hs Ht) as [A B]. destruct (row_blk Li.[below s + t] (S s) ltac:(lia) B) as (C & D & _).
  unfold brow. rewrite rd_ok by auto. simpl. rewrite rd_ok by auto. rewrite brows_at by auto. split; [auto|lia].
Qed.
Lemma brow_own s : s < nb -> brow c2b Li (below s - 1) = Ok s /\ 0 < b2c.[S s] - b2c.[s].
Proof.
  intros Hs. pose proof (bk_inc _ _ _ _ _ BK s Hs) as W. pose proof (below_le s Hs) as B. unfold below in *.
  assert (Ep : Lip.[b2c.[s]] + (b2c.[S s] - b2c.[s]) - 1 = Lip.[b2c.[s]] + (b2c.[S s] - b2c.[s] - 1)) by lia.
  pose proof (bk_own _ _ _ _ _ BK s (b2c.[S s] - b2c.[s] - 1) Hs ltac:(lia)) as O. rewrite <- Ep in O.
  unfold brow. rewrite rd_ok by (apply (pos_len s); [auto|lia]). simpl. rewrite O.
  pose proof (b2c_le (S s) nb ltac:(lia) ltac:(lia)). pose proof (bk_c2b _ _ _ _ _ BK).
  rewrite rd_ok by lia. rewrite (bk_of _ _ _ _ _ BK s) by lia. split; [auto|lia].
Qed.
Lemma head_ok {A} s (f : nat -> nat -> nat -> nat -> res A) : s < nb ->
  bind (rd b2c s) (fun cur => bind (rd b2c (S s)) (fun nxt => bind (rd Lip cur) (fun a => bind (rd Lip nxt) (fun b => f cur nxt a b))))
  = f b2c.[s] b2c.[S s] Lip.[b2c.[s]] Lip.[b2c.[S s]].
Proof.
  intros Hs. pose proof (b2c_le (S s) nb ltac:(lia) ltac:(lia)). pose proof (b2c_le s nb ltac:(lia) ltac:(lia)).
  rewrite rd_ok by (apply b2c_len; lia). simpl. rewrite rd_ok by (apply b2c_len; lia). simpl. rewrite rd_ok by (apply lip_len; lia). simpl.
  now rewrite rd_ok by (apply lip_len; lia).
Qed.

Lemma g_wf : wf_csc nb gp gi.
Proof.
  apply (rep_wf nb bcols); auto; [apply g_rep|apply bcols_len|apply gp_len|].
  intros u v Hu Hv. rewrite bcols_at in Hv by auto. destruct Hv as [<-|Hv]; [auto|]. apply In_aget in Hv. destruct Hv as (t & Ht & <-).
  rewrite brows_len in Ht. now apply brow_ok.
Qed.
Lemma g_edge u v : edge nb gp gi u v <-> E u v.
Proof.
  unfold edge, bedge. split.
  - intros (Hu & He & Hne). split; auto. apply (rep_entry nb bcols gp gi u v g_rep bcols_len (le_n _) Hu) in He.
    rewrite bcols_at in He by auto. destruct He as [->|He]; [contradiction|]. apply In_aget in He. destruct He as (t & Ht & <-).
    rewrite brows_len in Ht. exists (below u + t). rewrite brows_at by auto. split; [|auto]. pose proof (below_le u Hu). unfold bcnt in Ht. unfold below in *. lia.
  - intros (Hu & r & Hr & Er). split; auto. fold (below u) in Hr.
    assert (Hin : In v (brows u)).
    { unfold brows. apply in_map_iff. exists r. split; auto. apply in_seq. unfold bcnt. lia. }
    split; [apply (rep_entry nb bcols gp gi u v g_rep bcols_len (le_n _) Hu); rewrite bcols_at by auto; now right|].
    apply In_aget in Hin. destruct Hin as (t & Ht & <-). rewrite brows_len in Ht. destruct (brow_ok u t Hu Ht). lia.
Qed.
Lemma g_diag_first : diag_first nb gp gi.
Proof.
  intros j Hj. pose proof (gp_S j Hj) as P. destruct (gi_at j 0 Hj ltac:(lia)) as [_ A]. rewrite Nat.add_0_r in A.
  split; [lia|]. split; [exact A|]. intros k Hk.
  destruct (gi_at j (k - gp.[j]) Hj ltac:(lia)) as [_ B]. replace (gp.[j] + (k - gp.[j])) with k in B by lia. rewrite B.
  replace (k - gp.[j]) with (S (k - gp.[j] - 1)) by lia. rewrite aget_cons_S.
  destruct (brow_ok j (k - gp.[j] - 1) Hj ltac:(lia)). lia.
Qed.
Lemma g_lt u v : edge nb gp gi u v -> u < v /\ v < nb.
Proof.
  intros H. pose proof (wf_edge_lt nb gp gi g_wf u v H) as [_ Hv]. apply g_edge in H. destruct H as (Hu & r & Hr & <-).
  pose proof (bk_row _ _ _ _ _ BK u r Hu Hr) as B. destruct (row_blk Li.[r] (S u) ltac:(lia) B) as (_ & C & _). lia.
Qed.

(** * Degrees and removal *)
Lemma degree_ref : ref (for_ 0 nb (fun s deg => a <- rd gp s ;; b <- rd gp (S s) ;;
    for_ a b (fun r deg => v <- rd gi r ;; d <- rd deg v ;; wr deg v (d + 1)%Z) deg) (repeat 0%Z nb)) (bcsc_degree b2c c2b Lip Li nb).
Proof.
  unfold bcsc_degree. apply ref_for. intros s deg Hs. rewrite head_ok by lia. pose proof gp_len as G. pose proof (gp_S s ltac:(lia)) as GS.
  rewrite rd_ok by lia. simpl. rewrite rd_ok by lia. simpl. fold (below s).
  destruct (brow_own s ltac:(lia)) as [O W]. pose proof (below_le s ltac:(lia)) as B.
  apply ref_for_shift; [unfold bcnt in GS; unfold below in *; lia|]. intros t d Ht.
  destruct (gi_at s t ltac:(lia) ltac:(lia)) as [A1 A2]. rewrite rd_ok by auto. rewrite A2. simpl.
  destruct t as [|t].
  - rewrite Nat.add_0_r, O. simpl. apply ref_refl.
  - replace (below s - 1 + S t) with (below s + t) by (unfold below in *; lia). destruct (brow_ok s t ltac:(lia) ltac:(lia)) as [C _]. rewrite C.
    rewrite aget_cons_S. simpl. apply ref_refl.
Qed.

Lemma remove_ref lset lo hi deg : ref (remove_edges gp gi lset lo hi deg) (remove_edges_b b2c c2b Lip Li lset lo hi deg).
Proof.
  unfold remove_edges, remove_edges_b. apply ref_for. intros l d Hl. apply ref_same. intros cc _. pose proof gp_len as G.
  destruct (le_lt_dec nb cc) as [Hc|Hc].
  { intros x Ex. destruct (rd gp cc) as [k0|]; [|discriminate]. simpl in Ex. rewrite (rd_oob gp (S cc)) in Ex by lia. discriminate. }
  rewrite head_ok by auto. rewrite rd_ok by lia. simpl. rewrite rd_ok by lia. simpl. fold (below cc). pose proof (gp_S cc Hc) as GS.
  rewrite for_step by lia. destruct (gi_at cc 0 Hc ltac:(lia)) as [A1 A2]. rewrite Nat.add_0_r in *. rewrite rd_ok by auto. rewrite A2.
  rewrite aget_cons_0. simpl. rewrite Nat.eqb_refl. simpl.
  apply ref_for_shift; [unfold bcnt in GS; lia|]. intros t dg Ht. destruct (gi_at cc (S t) Hc ltac:(lia)) as [B1 B2].
  rewrite <- Nat.add_succ_comm in *. rewrite rd_ok by auto. rewrite B2, aget_cons_S. simpl.
  destruct (brow_ok cc t Hc ltac:(lia)) as [C D]. rewrite C. simpl. destruct (Nat.eqb_spec (brows cc).[t] cc); [lia|]. simpl. apply ref_refl.
Qed.
End Blocks.
