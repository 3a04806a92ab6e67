(** C119: merge_graphs. *)
From Verif Require Import Base Lib Lib2 Spec SpecSuper SpecFuse Check L_LBC5 M_Super M_Fuse L_Super3 P_Super2.
From Verif Require L_Bfs L_Merge L_Metis2.
From Coq Require Import ZifyBool ZifyNat.

Definition add_new (t : list nat) (x : nat) : list nat := if existsb (Nat.eqb x) t then t else t ++ [x].
Definition firsts (l : list nat) : list nat := fold_left add_new l [].

Lemma existsb_In x t : existsb (Nat.eqb x) t = true <-> In x t.
Proof. rewrite existsb_exists. split; [intros (y & H & E); apply Nat.eqb_eq in E; now subst|intros H; exists x; split; auto; apply Nat.eqb_refl]. Qed.
Lemma firsts_snoc l x : firsts (l ++ [x]) = add_new (firsts l) x.
Proof. unfold firsts. now rewrite fold_left_app. Qed.
Lemma firsts_facts l : NoDup (firsts l) /\ forall x, In x (firsts l) <-> In x l.
Proof.
  induction l as [|x l [H1 H2]] using rev_ind; [split; [constructor|tauto]|]. rewrite firsts_snoc. unfold add_new.
  destruct (existsb (Nat.eqb x) (firsts l)) eqn:E.
  - apply existsb_In in E. split; auto. intros y. rewrite in_app_iff, H2. split; [auto|]. intros [H|[<-|[]]]; auto. now apply H2.
  - assert (N : ~ In x (firsts l)) by (intros H; apply existsb_In in H; congruence). split.
    + apply L_Bfs.NoDup_app'; auto; [constructor; [intros []|constructor]|]. intros y Hy [<-|[]]. contradiction.
    + intros y. rewrite !in_app_iff, H2. tauto.
Qed.
Lemma NoDup_bound (l : list nat) m : NoDup l -> (forall x, In x l -> x < m) -> length l <= m.
Proof. intros H1 H2. rewrite <- (seq_length m 0). apply NoDup_incl_length; auto. intros x Hx. apply in_seq. specialize (H2 x Hx). lia. Qed.

Section Merge.
Context {V : Type} `{DV : Dflt V}.

Section Pass.
Variables (n nodes : nat) (super sup : list nat).
Hypothesis SU : length sup = n /\ forall s v, s < nodes -> super.[s] <= v < super.[S s] -> sup.[v] = s.
Hypothesis SR : forall v, v < n -> sup.[v] < nodes.

(** the rows of block [i] can be read and are rows of the matrix *)
Definition readable (M : bcsc V) : Prop := nodes <= length (b_nrows M) /\ forall i r, i < nodes -> r < (b_nrows M).[i] ->
  i < length (b_p M) /\ (b_p M).[i] + r < length (b_i M) /\ (b_i M).[(b_p M).[i] + r] < n.

Definition bl (stuck : bool) (M : bcsc V) (i : nat) : list nat :=
  firsts (map (fun r => sup.[(b_i M).[if stuck then (b_p M).[i] else (b_p M).[i] + r]]) (seq 0 (b_nrows M).[i])).

Lemma bl_lt stuck M i x : readable M -> i < nodes -> In x (bl stuck M i) -> x < nodes.
Proof.
  intros (R1 & R2) Hi H. unfold bl in H. rewrite (proj2 (firsts_facts _)) in H. apply in_map_iff in H. destruct H as (r & <- & Hr). apply in_seq in Hr. apply SR.
  destruct stuck; [destruct (R2 i 0 Hi ltac:(lia)) as (_ & _ & H); now rewrite Nat.add_0_r in H|apply R2; auto; lia].
Qed.

Lemma block_rows3_wp stuck M i (Q : list bool * list nat -> Prop) : readable M -> i < nodes -> Q (repeat false nodes, bl stuck M i) ->
  wp (block_rows3 stuck nodes M sup i (repeat false nodes)) Q.
Proof.
  intros R Hi HQ. pose proof R as (R1 & R2). destruct SU as [S1 _]. unfold block_rows3. wp1. wp1; [lia|]. wp1.
  set (g := fun r => sup.[(b_i M).[if stuck then (b_p M).[i] else (b_p M).[i] + r]]).
  apply (wp_for (fun r (st : list bool * list nat) => let '(b, t) := st in length b = nodes /\ t = firsts (map g (seq 0 r)) /\ forall x, x < nodes -> (b.[x] = true <-> In x t))); [lia| | |].
  - splits; [apply repeat_length|reflexivity|]. intros x Hx. rewrite aget_repeat by auto. split; [discriminate|intros []].
  - intros r (b & t) Hr (I1 & I2 & I3). destruct (R2 i r Hi ltac:(lia)) as (P1 & P2 & P3). destruct (R2 i 0 Hi ltac:(lia)) as (_ & P4 & P5). rewrite Nat.add_0_r in P4, P5.
    assert (P6 : (if stuck then (b_p M).[i] else (b_p M).[i] + r) < length (b_i M) /\ (b_i M).[if stuck then (b_p M).[i] else (b_p M).[i] + r] < n) by (destruct stuck; auto).
    wp1. wp1; [lia|]. wp1. wp1; [apply P6|]. wp1. wp1; [destruct P6; lia|]. change (sup.[_]) with (g r). assert (G : g r < nodes) by (apply SR; apply P6).
    wp1. wp1; [lia|]. rewrite seq_S, map_app. cbn [map Nat.add]. rewrite firsts_snoc, <- I2. unfold add_new.
    destruct (b.[g r]) eqn:EB.
    + wp1. apply I3 in EB; auto. rewrite (proj2 (existsb_In (g r) t) EB). auto.
    + assert (NI : ~ In (g r) t) by (intros H; apply I3 in H; auto; congruence). destruct (existsb (Nat.eqb (g r)) t) eqn:EE; [apply existsb_In in EE; contradiction|].
      wp1. wp1; [lia|]. assert (LT : length t < nodes).
      { destruct (firsts_facts (map g (seq 0 r))) as [F1 F2]. rewrite <- I2 in F1, F2. assert (ND : NoDup (t ++ [g r])) by (apply L_Bfs.NoDup_app'; auto; [constructor; [intros []|constructor]|intros y Hy [<-|[]]; contradiction]).
        pose proof (NoDup_bound (t ++ [g r]) nodes ND) as B. rewrite app_length in B. cbn in B. enough (length t + 1 <= nodes) by lia. apply B. intros x Hx. apply in_app_iff in Hx.
        destruct Hx as [Hx|[<-|[]]]; auto. apply F2 in Hx. apply in_map_iff in Hx. destruct Hx as (r' & <- & Hr'). apply in_seq in Hr'. apply SR.
        destruct stuck; [auto|]. apply R2; auto. lia. }
      destruct (Nat.ltb_spec (length t) nodes); [|lia]. wp1. rewrite upd_length. splits; auto. intros x Hx. rewrite aget_upd by lia. rewrite in_app_iff.
      destruct (Nat.eqb_spec x (g r)) as [->|Hne]; [split; auto; intros _; right; now left|]. rewrite I3 by auto. split; [auto|]. intros [H'|[H'|[]]]; [auto|congruence].
  - intros (b & t) (I1 & I2 & I3). wp1. assert (T : t = bl stuck M i) by exact I2. apply (clear_rows_wp nodes); auto.
    + intros x Hx. rewrite T in Hx. now apply (bl_lt stuck M i).
    + intros x Hx HB. now apply I3.
    + wp1. now rewrite T.
Qed.

Lemma count_pass_wp stuck more M a (Q : nat * list bool -> Prop) : readable M ->
  Q (a + list_sum (map (fun i => length (bl stuck M i) + more) (seq 0 nodes)), repeat false nodes) ->
  wp (count_pass stuck more nodes M sup (a, repeat false nodes)) Q.
Proof.
  intros R HQ. unfold count_pass.
  apply (wp_for (fun i (st : nat * list bool) => st = (a + list_sum (map (fun i => length (bl stuck M i) + more) (seq 0 i)), repeat false nodes))); [lia| | |].
  - cbn. now rewrite Nat.add_0_r.
  - intros i st Hi ->. wp1. apply block_rows3_wp; auto; [lia|]. wp1. rewrite seq_S, map_app, L_Bfs.list_sum_app'. cbn [map list_sum fold_right Nat.add]. f_equal. lia.
  - intros st ->. auto.
Qed.

(** writing the columns [col j (bl j)] behind the columns [Ls] *)
Lemma write_pass_wp stuck col M Ls Mp Mi (Q : list nat * list nat * nat * nat * list bool -> Prop) : readable M ->
  rep Ls Mp Mi -> length Ls + nodes < length Mp -> length (concat (Ls ++ map (fun j => col j (bl stuck M j)) (seq 0 nodes))) <= length Mi ->
  (forall Mp' Mi', rep (Ls ++ map (fun j => col j (bl stuck M j)) (seq 0 nodes)) Mp' Mi' -> length Mp' = length Mp -> length Mi' = length Mi ->
     Q (Mp', Mi', S (length Ls + nodes), length (concat (Ls ++ map (fun j => col j (bl stuck M j)) (seq 0 nodes))), repeat false nodes)) ->
  wp (write_pass stuck col nodes M sup (Mp, Mi, S (length Ls), length (concat Ls), repeat false nodes)) Q.
Proof.
  intros R RP LP LI HQ. unfold write_pass. set (f := fun j => col j (bl stuck M j)) in *.
  apply (wp_for (fun j (st : list nat * list nat * nat * nat * list bool) => let '(Mp', Mi', p, i, b) := st in rep (Ls ++ map f (seq 0 j)) Mp' Mi' /\ length Mp' = length Mp /\ length Mi' = length Mi /\
     p = S (length Ls + j) /\ i = length (concat (Ls ++ map f (seq 0 j))) /\ b = repeat false nodes)); [lia| | |].
  - cbn [seq map]. rewrite app_nil_r, Nat.add_0_r. splits; auto.
  - intros j ((((Mp' & Mi') & p) & i) & b) Hj (I1 & I2 & I3 & -> & -> & ->). set (Lj := Ls ++ map f (seq 0 j)) in *.
    assert (LL : length Lj = length Ls + j) by (unfold Lj; now rewrite app_length, map_length, seq_length).
    wp1. wp1; [lia|]. wp1. apply block_rows3_wp; auto; [lia|]. replace (S (length Ls + j) - 1) with (length Lj) by lia.
    destruct I1 as [I1 I1']. assert (EA : Mp'.[length Lj] = length (concat Lj)) by (rewrite I1 by lia; now rewrite firstn_all). rewrite EA.
    change (col j (bl stuck M j)) with (f j).
    assert (SP : Ls ++ map f (seq 0 nodes) = (Lj ++ [f j]) ++ map f (seq (S j) (nodes - S j))).
    { unfold Lj. rewrite <- !app_assoc. f_equal. replace nodes with (j + S (nodes - S j)) at 1 by lia. rewrite seq_app, map_app. reflexivity. }
    rewrite SP, !concat_app, !app_length in LI. cbn [concat] in LI. rewrite app_nil_r in LI.
    wp1. apply (wp_foreach (fun pre (st : list nat * nat) => let '(Mi2, i) := st in length Mi2 = length Mi /\ i = length (concat Lj) + length pre /\ forall k, k < length (concat Lj ++ pre) -> Mi2.[k] = (concat Lj ++ pre).[k])).
    + splits; auto. rewrite app_nil_r. auto.
    + intros pre x post (Mi2 & i) E (J1 & -> & J3). apply (f_equal (@length nat)) in E. rewrite app_length in E. cbn in E. wp1. wp1; [lia|]. wp1. rewrite upd_length. split; [auto|]. split; [rewrite app_length; cbn; lia|].
      intros k Hk. rewrite aget_upd by lia. rewrite app_assoc in *. rewrite app_length in Hk. cbn in Hk. rewrite app_length in Hk. destruct (Nat.eqb_spec k (length (concat Lj) + length pre)) as [->|].
      * rewrite <- app_length, aget_app_last. reflexivity.
      * rewrite aget_app1 by (rewrite app_length; lia). apply J3. rewrite app_length. lia.
    + intros (Mi2 & i) (J1 & -> & J3). wp1. wp1; [lia|]. wp1. rewrite upd_length.
      replace (Ls ++ map f (seq 0 (S j))) with (Lj ++ [f j]) by (unfold Lj; rewrite <- app_assoc, seq_S, map_app; reflexivity).
      assert (EC : length (concat Lj) + length (f j) = length (concat (Lj ++ [f j]))) by (rewrite concat_app; cbn [concat]; now rewrite app_nil_r, app_length).
      split; [|split; [auto|split; [auto|split; [lia|split; auto]]]]. split.
      * intros k Hk. rewrite app_length in Hk. cbn in Hk. rewrite aget_upd by lia. destruct (Nat.eqb_spec k (S (length Ls + j))) as [->|].
        -- rewrite firstn_all2 by (rewrite app_length; cbn; lia). rewrite concat_app, app_length. cbn [concat]. now rewrite app_nil_r.
        -- rewrite I1 by lia. rewrite firstn_app. replace (k - length Lj) with 0 by lia. cbn [firstn]. now rewrite app_nil_r.
      * rewrite concat_app. cbn [concat]. rewrite app_nil_r. auto.
  - intros ((((Mp' & Mi') & p) & i) & b) (I1 & I2 & I3 & -> & -> & ->). now apply HQ.
Qed.
End Pass.

Lemma supers_of_wp n nodes super (Q : list nat -> Prop) : block_cuts n nodes super ->
  (forall sup, length sup = n -> (forall s v, s < nodes -> super.[s] <= v < super.[S s] -> sup.[v] = s) -> Q sup) -> wp (supers_of n nodes super) Q.
Proof.
  intros (C1 & C2 & C3 & C4) HQ. assert (M : forall a b, a <= b -> b <= nodes -> super.[a] <= super.[b]) by (apply (mono_le (aget super) nodes); intros i Hi; specialize (C4 i Hi); lia).
  unfold supers_of. wp1.
  apply (wp_for (fun i (st : list nat * nat) => let '(sup, c) := st in length sup = n /\ c = super.[i] /\ forall s v, s < i -> super.[s] <= v < super.[S s] -> sup.[v] = s)); [lia| | |].
  - rewrite repeat_length. splits; auto. intros s v Hs. lia.
  - intros i [sup c] Hi (I1 & -> & I2). pose proof (C4 i ltac:(lia)) as L1. pose proof (M (S i) nodes ltac:(lia) ltac:(lia)) as L2.
    apply (wp_while (fun st : list nat * nat => let '(sup, c) := st in length sup = n /\ super.[i] <= c <= super.[S i] /\ (forall s v, s < i -> super.[s] <= v < super.[S s] -> sup.[v] = s) /\
       forall v, super.[i] <= v < c -> sup.[v] = i) (fun '(sup, c) => n - c)).
    + splits; auto; intros; lia.
    + lia.
    + clear sup I1 I2. intros [sup c] (J1 & J2 & J3 & J4). wp1. wp1; [lia|]. wp1. wp1; [lia|]. wp1.
      destruct ((super.[i] <=? c) && (c <? super.[S i])) eqn:E.
      * wp1. wp1; [lia|]. wp1. rewrite upd_length. splits; auto; try lia.
        -- intros s v Hs Hv. rewrite aget_upd_ne; [now apply J3|]. pose proof (M (S s) i ltac:(lia) ltac:(lia)). lia.
        -- intros v Hv. rewrite aget_upd by lia. destruct (Nat.eqb_spec v c) as [->|]; [reflexivity|]. apply J4. lia.
      * splits; auto; [lia|]. intros s v Hs Hv. destruct (Nat.eq_dec s i) as [->|]; [apply J4; lia|apply J3; lia].
  - intros [sup c] (I1 & -> & I2). wp1. now apply HQ.
Qed.

(** what the format says about the rows of a block *)
Lemma exact_rows Ap Ai Ax n nodes super nnz p mi (mx : list V) nrows s : wf_csc n Ap Ai -> block_cuts n nodes super -> blocks_exact Ap Ai Ax nodes super nnz p mi mx nrows -> s < nodes ->
  s < length p /\ exists rows, length rows = nrows.[s] /\ sorted_lt rows /\ (forall r, In r rows <-> exists j, super.[s] <= j < super.[S s] /\ entry Ap Ai j r) /\
   (forall k, k < length rows -> p.[s] + k < length mi /\ mi.[p.[s] + k] = rows.[k] /\ rows.[k] < n).
Proof.
  intros W (C1 & C2 & C3 & C4) (B1 & B2 & B3 & B4 & B5 & B6 & B7) Hs. pose proof W as (W1 & W2 & W3 & W4 & W5). split; [lia|].
  destruct (B7 s Hs) as (rows & R1 & R2 & R3 & R4 & R5). exists rows. splits; auto. intros k Hk.
  assert (MP : forall a b, a <= b -> b <= nodes -> p.[a] <= p.[b]).
  { apply (mono_le (aget p) nodes). intros i Hi. destruct (B7 i Hi) as (_ & _ & E & _). rewrite E. apply Nat.le_add_r. }
  pose proof (C4 s Hs) as CS. pose proof (MP (S s) nodes ltac:(lia) ltac:(lia)) as PL. splits.
  - nia.
  - destruct (R5 super.[s] k ltac:(lia) Hk) as [E _]. rewrite Nat.sub_diag in E. cbn [Nat.mul] in E. now rewrite Nat.add_0_r in E.
  - pose proof (aget_In rows k Hk) as HI. apply R4 in HI. destruct HI as (j & Hj & q & Hq & <-). apply W5.
    assert (MS : forall a b, a <= b -> b <= nodes -> super.[a] <= super.[b]) by (apply (mono_le (aget super) nodes); intros i Hi; specialize (C4 i Hi); lia).
    pose proof (MS (S s) nodes ltac:(lia) ltac:(lia)). assert (Ap.[S j] <= Ap.[n]) by (apply (mono_le (aget Ap) n); auto; lia). lia.
Qed.

Section Facts.
Variables (n nodes : nat) (super sup Ap Ai : list nat) (Ax : list V) (M : bcsc V).
Hypothesis C : block_cuts n nodes super.
Hypothesis S1 : length sup = n.
Hypothesis S2 : forall s v, s < nodes -> super.[s] <= v < super.[S s] -> sup.[v] = s.
Hypothesis W : wf_csc n Ap Ai.
Hypothesis BE : blocks_exact Ap Ai Ax nodes super (b_nnz M) (b_p M) (b_i M) (b_x M) (b_nrows M).

Lemma cuts_block v : v < n -> exists t, t < nodes /\ super.[t] <= v < super.[S t].
Proof. intros Hv. destruct C as (C1 & C2 & C3 & C4). apply (bucket_exists (aget super) nodes v); lia. Qed.
Lemma sup_range v : v < n -> sup.[v] < nodes.
Proof. intros Hv. destruct (cuts_block v Hv) as (t & Ht & H). now rewrite (S2 t v Ht H). Qed.
Lemma exact_readable : readable n nodes M.
Proof.
  split; [destruct BE as (_ & _ & _ & _ & _ & H & _); lia|]. intros i r Hi Hr. destruct (exact_rows Ap Ai Ax n nodes super _ _ _ _ _ i W C BE Hi) as (P1 & rows & R1 & R2 & R3 & R4).
  destruct (R4 r ltac:(lia)) as (Q1 & Q2 & Q3). splits; auto. now rewrite Q2.
Qed.
Lemma bl_meets j t : j < nodes -> (In t (bl sup false M j) <-> t < nodes /\ meets Ap Ai super j t).
Proof.
  intros Hj. destruct (exact_rows Ap Ai Ax n nodes super _ _ _ _ _ j W C BE Hj) as (P1 & rows & R1 & R2 & R3 & R4). unfold bl. rewrite (proj2 (firsts_facts _)). rewrite in_map_iff. split.
  - intros (r & <- & Hr). apply in_seq in Hr. destruct (R4 r ltac:(lia)) as (Q1 & Q2 & Q3). rewrite Q2. destruct (cuts_block _ Q3) as (t & Ht & Hb). rewrite (S2 t _ Ht Hb). split; auto.
    pose proof (aget_In rows r ltac:(lia)) as HI. apply R3 in HI. destruct HI as (u & Hu & He). exists u, rows.[r]. auto.
  - intros (Ht & u & v & Hu & He & Hv). assert (HI : In v rows) by (apply R3; eauto). apply In_aget in HI. destruct HI as (r & Hr & E). exists r. split; [|apply in_seq; lia].
    destruct (R4 r Hr) as (Q1 & Q2 & Q3). rewrite Q2, E. now apply S2.
Qed.
Lemma bl_stuck j t : j < nodes -> (In t (bl sup true M j) <-> t < nodes /\ exists v, smallest_row Ap Ai super j v /\ super.[t] <= v < super.[S t]).
Proof.
  intros Hj. destruct (exact_rows Ap Ai Ax n nodes super _ _ _ _ _ j W C BE Hj) as (P1 & rows & R1 & R2 & R3 & R4). unfold bl. rewrite (proj2 (firsts_facts _)). rewrite in_map_iff.
  assert (SM : forall v, smallest_row Ap Ai super j v <-> 0 < length rows /\ v = rows.[0]).
  { intros v. split.
    - intros [(u & Hu & He) Hm]. assert (HI : In v rows) by (apply R3; eauto). apply In_aget in HI. destruct HI as (r & Hr & E). split; [lia|].
      pose proof (aget_In rows 0 ltac:(lia)) as H0. apply R3 in H0. destruct H0 as (u' & Hu' & He'). pose proof (Hm u' _ Hu' He') as L.
      destruct (Nat.eq_dec r 0) as [->|]; [auto|]. pose proof (R2 0 r ltac:(lia) Hr). lia.
    - intros [H0 ->]. split; [pose proof (aget_In rows 0 H0) as H1; apply R3 in H1; destruct H1 as (u & H1 & H2); eauto|]. intros u w Hu He.
      assert (HI : In w rows) by (apply R3; eauto). apply In_aget in HI. destruct HI as (r & Hr & <-). destruct (Nat.eq_dec r 0) as [->|]; [auto|]. pose proof (R2 0 r ltac:(lia) Hr). lia. }
  split.
  - intros (r & <- & Hr). apply in_seq in Hr. destruct (R4 0 ltac:(lia)) as (Q1 & Q2 & Q3). rewrite Nat.add_0_r in Q2. rewrite Q2. destruct (cuts_block _ Q3) as (t & Ht & Hb). rewrite (S2 t _ Ht Hb).
    split; auto. exists rows.[0]. split; auto. apply SM. split; [lia|auto].
  - intros (Ht & v & Hv & Hb). apply SM in Hv. destruct Hv as [H0 ->]. exists 0. split; [|apply in_seq; lia]. destruct (R4 0 ltac:(lia)) as (Q1 & Q2 & Q3). rewrite Nat.add_0_r in Q2. rewrite Q2. now apply S2.
Qed.
End Facts.

Lemma len_concat (f : nat -> list nat) l : length (concat (map f l)) = list_sum (map (fun j => length (f j)) l).
Proof. induction l as [|a l IH]; [reflexivity|]. cbn [map concat list_sum fold_right]. rewrite app_length, IH. reflexivity. Qed.

(** the graph: block [j] of A is node j, of B node nodes + j, of C node 2*nodes + j *)
Theorem C119_merged_graph : forall n nodes super Ap Ai (Ax : list V) Bp Bi (Bx : list V) Cp Ci (Cx : list V) (A C : bcsc V),
  block_cuts n nodes super -> wf_csc n Ap Ai -> wf_csc n Bp Bi -> wf_csc n Cp Ci ->
  Bp.[n] <= length Bx -> sorted_cols n Bp Bi -> (0 < n -> Bp.[n - 1] < Bp.[n] /\ Bi.[Bp.[n] - 1] = n - 1) ->
  b_nodes A = nodes -> b_super A = super ->
  blocks_exact Ap Ai Ax nodes super (b_nnz A) (b_p A) (b_i A) (b_x A) (b_nrows A) ->
  blocks_exact Cp Ci Cx nodes super (b_nnz C) (b_p C) (b_i C) (b_x C) (b_nrows C) ->
  exists Mp Mi, merge_graphs n A Bp Bi Bx C = Ok (Mp, Mi) /\ wf_csc (3 * nodes) Mp Mi /\ length Mi = Mp.[3 * nodes] /\
    (forall i, i < 3 * nodes -> NoDup (column Mp Mi i)) /\
    (forall j w, j < nodes -> (entry Mp Mi j w <-> (w < nodes /\ meets Ap Ai super j w) \/ w = j + nodes)) /\
    (forall j w, j < nodes -> (entry Mp Mi (nodes + j) w <-> w = j + nodes \/
       exists t v, t < nodes /\ w = 2 * nodes + t /\ smallest_row Bp Bi super j v /\ super.[t] <= v < super.[S t])) /\
    (forall j w, j < nodes -> (entry Mp Mi (2 * nodes + j) w <-> exists t, t < nodes /\ w = 2 * nodes + t /\ meets Cp Ci super j t)).
Proof.
  intros n nodes super Ap Ai Ax Bp Bi Bx Cp Ci Cx A C BC WA WB WC LX SC LAST EN ES BA BCx.
  destruct (C78_format_exact n Bp Bi Bx nodes super WB LX SC LAST BC) as (nB & EB & NB1 & NB2 & BB).
  pose proof BC as (C1 & C2 & C3 & C4).
  set (goal := fun r : list nat * list nat => let '(Mp, Mi) := r in wf_csc (3 * nodes) Mp Mi /\ length Mi = Mp.[3 * nodes] /\ (forall i, i < 3 * nodes -> NoDup (column Mp Mi i)) /\
    (forall j w, j < nodes -> (entry Mp Mi j w <-> (w < nodes /\ meets Ap Ai super j w) \/ w = j + nodes)) /\
    (forall j w, j < nodes -> (entry Mp Mi (nodes + j) w <-> w = j + nodes \/
       exists t v, t < nodes /\ w = 2 * nodes + t /\ smallest_row Bp Bi super j v /\ super.[t] <= v < super.[S t])) /\
    (forall j w, j < nodes -> (entry Mp Mi (2 * nodes + j) w <-> exists t, t < nodes /\ w = 2 * nodes + t /\ meets Cp Ci super j t))).
  assert (G : wp (merge_graphs n A Bp Bi Bx C) goal).
  { unfold merge_graphs. rewrite EN, ES, EB. cbn [bind]. apply wp_bind, supers_of_wp; auto. intros sup S1 S2.
    pose proof (sup_range n nodes super sup BC S1 S2) as SR. assert (SU : length sup = n /\ forall s v, s < nodes -> super.[s] <= v < super.[S s] -> sup.[v] = s) by auto.
    pose proof (exact_readable n nodes super sup Ap Ai Ax A BC S1 S2 WA BA) as RA. pose proof (exact_readable n nodes super sup Cp Ci Cx C BC S1 S2 WC BCx) as RC.
    pose proof (exact_readable n nodes super sup Bp Bi Bx nB BC S1 S2 WB BB) as RB.
    apply wp_bind, (count_pass_wp n nodes super sup SU SR); auto. apply wp_bind, (count_pass_wp n nodes super sup SU SR); auto. apply wp_bind, (count_pass_wp n nodes super sup SU SR); auto.
    wp1. wp1; [rewrite repeat_length; lia|].
    set (fA := fun j => bl sup false A j ++ [j + nodes]). set (fB := fun j => (j + nodes) :: map (fun r => r + 2 * nodes) (bl sup true nB j)). set (fC := fun j => map (fun r => r + 2 * nodes) (bl sup false C j)).
    set (LA := map fA (seq 0 nodes)). set (LB := map fB (seq 0 nodes)). set (LC := map fC (seq 0 nodes)).
    match goal with |- context [repeat 0 (?x)] => match x with 0 + _ + _ + _ => set (nnz := x) end end.
    assert (EZ : nnz = length (concat ((LA ++ LB) ++ LC))).
    { unfold nnz, LA, LB, LC. rewrite !concat_app, !app_length, !len_concat. cbn [Nat.add]. f_equal; [f_equal|]; f_equal; apply map_ext; intros j; unfold fA, fB, fC; rewrite ?app_length, ?map_length; cbn [length]; rewrite ?map_length; lia. }
    assert (UZ : upd (repeat 0 (3 * nodes + 1)) 0 0 = repeat 0 (3 * nodes + 1)).
    { apply list_ext; [apply upd_length|]. rewrite upd_length, repeat_length. intros i Hi. rewrite aget_upd by (rewrite repeat_length; lia). rewrite aget_repeat by auto. destruct (i =? 0); auto. }
    rewrite UZ. assert (LLA : length LA = nodes) by (unfold LA; now rewrite map_length, seq_length). assert (LLB : length LB = nodes) by (unfold LB; now rewrite map_length, seq_length). assert (LLC : length LC = nodes) by (unfold LC; now rewrite map_length, seq_length).
    apply wp_bind. apply (write_pass_wp n nodes super sup SU SR false (fun j t => t ++ [j + nodes]) A []); auto.
    { split; [|intros k Hk; cbn in Hk; lia]. intros i Hi. cbn in Hi. assert (i = 0) by lia. subst i. rewrite aget_repeat by lia. reflexivity. }
    { rewrite repeat_length. cbn. lia. }
    { rewrite repeat_length, EZ. cbn [app]. fold fA LA. rewrite !concat_app, !app_length. lia. }
    intros Mp1 Mi1 R1 P1 I1. cbn [app length Nat.add] in R1 |- *. fold fA in R1. fold LA in R1. change (map (fun j => bl sup false A j ++ [j + nodes]) (seq 0 nodes)) with LA.
    rewrite repeat_length in P1, I1. apply wp_bind.
    replace (S nodes) with (S (length LA)) by lia.
    apply (write_pass_wp n nodes super sup SU SR true (fun j t => (j + nodes) :: map (fun r => r + 2 * nodes) t) nB LA); auto.
    { lia. }
    { rewrite I1, EZ. fold fB LB. rewrite !concat_app, !app_length. lia. }
    intros Mp2 Mi2 R2 P2 I2. fold fB in R2. fold LB in R2. change (map (fun j => (j + nodes) :: map (fun r => r + 2 * nodes) (bl sup true nB j)) (seq 0 nodes)) with LB.
    apply wp_bind. replace (S (length LA + nodes)) with (S (length (LA ++ LB))) by (rewrite app_length; lia).
    apply (write_pass_wp n nodes super sup SU SR false (fun j t => map (fun r => r + 2 * nodes) t) C (LA ++ LB)); auto.
    { rewrite app_length. lia. }
    { fold fC LC. lia. }
    intros Mp Mi R3 P3 I3. fold fC in R3. fold LC in R3. apply wp_ret. unfold goal. clear R1 R2.
    set (cols := (LA ++ LB) ++ LC) in *. assert (LCo : length cols = 3 * nodes) by (unfold cols; rewrite !app_length; lia).
    assert (LMi : length Mi = length (concat cols)) by lia. assert (LMp : length Mp = 3 * nodes + 1) by lia.
    assert (GA : forall j, j < nodes -> cols.[j] = fA j).
    { intros j Hj. unfold cols, LA. rewrite !aget_app1 by (rewrite ?app_length, ?map_length, ?seq_length; lia). now rewrite aget_map_seq by auto. }
    assert (GB : forall j, j < nodes -> cols.[nodes + j] = fB j).
    { intros j Hj. unfold cols. rewrite aget_app1 by (rewrite app_length; lia). rewrite aget_app2 by lia. rewrite LLA. replace (nodes + j - nodes) with j by lia. unfold LB. now rewrite aget_map_seq by auto. }
    assert (GC : forall j, j < nodes -> cols.[2 * nodes + j] = fC j).
    { intros j Hj. unfold cols. rewrite aget_app2 by (rewrite app_length; lia). rewrite app_length, LLA, LLB. replace (2 * nodes + j - (nodes + nodes)) with j by lia. unfold LC. now rewrite aget_map_seq by auto. }
    assert (TH : forall u, u < 3 * nodes -> (u < nodes /\ cols.[u] = fA u) \/ (exists j, j < nodes /\ u = nodes + j /\ cols.[u] = fB j) \/ (exists j, j < nodes /\ u = 2 * nodes + j /\ cols.[u] = fC j)).
    { intros u Hu. destruct (le_lt_dec nodes u) as [L|L]; [|left; auto]. right. destruct (le_lt_dec (2 * nodes) u) as [L'|L'].
      - right. exists (u - 2 * nodes). splits; try lia. rewrite <- GC by lia. f_equal. lia.
      - left. exists (u - nodes). splits; try lia. rewrite <- GB by lia. f_equal. lia. }
    assert (NA : forall st (M : bcsc V) j x, readable n nodes M -> j < nodes -> In x (bl sup st M j) -> x < nodes).
    { intros st M j x R Hj Hx. exact (bl_lt n nodes super sup SU SR st M j x R Hj Hx). }
    splits.
    - apply (L_Metis2.rep_wf (3 * nodes) cols); auto; [lia|]. intros u v Hu Hv. destruct (TH u Hu) as [(H & E)|[(j & H & -> & E)|(j & H & -> & E)]]; rewrite E in Hv.
      + unfold fA in Hv. apply in_app_iff in Hv. destruct Hv as [Hv|[<-|[]]]; [|lia]. apply NA in Hv; auto. lia.
      + destruct Hv as [<-|Hv]; [lia|]. apply in_map_iff in Hv. destruct Hv as (r & <- & Hr). apply NA in Hr; auto. lia.
      + apply in_map_iff in Hv. destruct Hv as (r & <- & Hr). apply NA in Hr; auto. lia.
    - rewrite (proj1 R3) by lia. rewrite firstn_all2 by lia. auto.
    - intros u Hu. unfold column. rewrite (L_Merge.rep_slice cols Mp Mi u R3) by lia. destruct (TH u Hu) as [(H & E)|[(j & H & -> & E)|(j & H & -> & E)]]; rewrite E.
      + unfold fA. apply L_Bfs.NoDup_app'; [apply firsts_facts|constructor; [intros []|constructor]|]. intros x Hx [<-|[]]. apply NA in Hx; auto. lia.
      + unfold fB. constructor; [intros Hx; apply in_map_iff in Hx; destruct Hx as (r & E' & _); lia|]. apply FinFun.Injective_map_NoDup; [intros a b; lia|apply firsts_facts].
      + unfold fC. apply FinFun.Injective_map_NoDup; [intros a b; lia|apply firsts_facts].
    - intros j w Hj. rewrite (L_Metis2.rep_entry (3 * nodes) cols) by (auto; lia). rewrite GA by auto. unfold fA. rewrite in_app_iff. rewrite (bl_meets n nodes super sup Ap Ai Ax A BC S1 S2 WA BA j w Hj). cbn [In]. intuition.
    - intros j w Hj. rewrite (L_Metis2.rep_entry (3 * nodes) cols) by (auto; lia). rewrite GB by auto. unfold fB. cbn [In]. rewrite in_map_iff. split.
      + intros [<-|(r & <- & Hr)]; [now left|right]. apply (bl_stuck n nodes super sup Bp Bi Bx nB BC S1 S2 WB BB j r Hj) in Hr. destruct Hr as (Hr & v & H1 & H2). exists r, v. splits; auto; lia.
      + intros [->|(t & v & Ht & -> & H1 & H2)]; [now left|right]. exists t. split; [lia|]. apply (bl_stuck n nodes super sup Bp Bi Bx nB BC S1 S2 WB BB j t Hj). split; auto. eauto.
    - intros j w Hj. rewrite (L_Metis2.rep_entry (3 * nodes) cols) by (auto; lia). rewrite GC by auto. unfold fC. rewrite in_map_iff. split.
      + intros (r & <- & Hr). apply (bl_meets n nodes super sup Cp Ci Cx C BC S1 S2 WC BCx j r Hj) in Hr. destruct Hr as (Hr & H1). exists r. splits; auto. lia.
      + intros (t & Ht & -> & H1). exists t. split; [lia|]. apply (bl_meets n nodes super sup Cp Ci Cx C BC S1 S2 WC BCx j t Hj). auto. }
  apply wp_ok in G. destruct G as ((Mp & Mi) & E & G). exists Mp, Mi. split; [exact E|]. exact G.
Qed.
End Merge.
Print Assumptions C119_merged_graph.

(** blocks 0, {1,2}, 3 for all three matrices: the row 3 of column 0 of B leads from block 0 to block 2 and is not in the graph *)
Theorem C119_lost_edge_refuted : exists n nodes super Ap Ai Bp Bi (A : bcsc nat) Mp Mi,
  block_cuts n nodes super /\ wf_csc n Ap Ai /\ wf_csc n Bp Bi /\ sorted_cols n Ap Ai /\ sorted_cols n Bp Bi /\
  newBCSC n Ap Ai (repeat 1 8) nodes super = Ok A /\ merge_graphs n A Bp Bi (repeat 1 8) A = Ok (Mp, Mi) /\
  meets Bp Bi super 0 2 /\ ~ entry Mp Mi (nodes + 0) (2 * nodes + 2).
Proof.
  exists 4, 3, [0;1;3;4], [0;2;5;7;8], [0;1;1;2;3;2;3;3], [0;2;4;6;8], [0;3;1;3;0;2;2;3]. eexists. exists [0;3;6;8;10;12;14;16;18;19], [0;1;3;1;2;4;2;5;3;6;4;6;5;7;6;7;7;8;8].
  split. { unfold block_cuts. cbn. splits; try lia. intros [|[|[|s]]] Hs; try lia; cbn; lia. }
  split. { apply wf_cscb_ok. vm_compute. reflexivity. }
  split. { apply wf_cscb_ok. vm_compute. reflexivity. }
  split. { apply sorted_colsb_ok. vm_compute. reflexivity. }
  split. { apply sorted_colsb_ok. vm_compute. reflexivity. }
  split. { vm_compute. reflexivity. }
  split. { vm_compute. reflexivity. }
  split. { exists 0, 3. cbn. splits; try lia. exists 1. cbn. lia. }
  intros (k & Hk & E). unfold aget in Hk, E. cbn in Hk. assert (k = 8 \/ k = 9) as [->| ->] by lia; cbn in E; lia.
Qed.
Print Assumptions C119_lost_edge_refuted.

Example C119_nonvacuous : exists (A : bcsc nat) Mp Mi, newBCSC 4 [0;2;5;7;8] [0;1;1;2;3;2;3;3] (repeat 1 8) 3 [0;1;3;4] = Ok A /\
  merge_graphs 4 A [0;2;4;6;8] [0;3;1;3;0;2;2;3] (repeat 1 8) A = Ok (Mp, Mi) /\ wf_csc 9 Mp Mi /\ entry Mp Mi 0 1 /\ entry Mp Mi 4 6.
Proof.
  assert (BC : block_cuts 4 3 [0;1;3;4]) by (unfold block_cuts; cbn; splits; try lia; intros [|[|[|s]]] Hs; try lia; cbn; lia).
  assert (WA : wf_csc 4 [0;2;5;7;8] [0;1;1;2;3;2;3;3]) by (apply wf_cscb_ok; vm_compute; reflexivity).
  assert (WB : wf_csc 4 [0;2;4;6;8] [0;3;1;3;0;2;2;3]) by (apply wf_cscb_ok; vm_compute; reflexivity).
  destruct (C78_format_exact 4 [0;2;5;7;8] [0;1;1;2;3;2;3;3] (repeat 1 8) 3 [0;1;3;4] WA) as (A & EA & H1 & H2 & BA); auto.
  { apply sorted_colsb_ok. vm_compute. reflexivity. }
  destruct (C119_merged_graph 4 3 [0;1;3;4] _ _ (repeat 1 8) _ _ (repeat 1 8) _ _ (repeat 1 8) A A BC WA WB WA) as (Mp & Mi & E & W & _ & _ & GA & GB & _); auto.
  { apply sorted_colsb_ok. vm_compute. reflexivity. }
  { intros _. cbn. lia. }
  exists A, Mp, Mi. splits; auto.
  - apply GA; [lia|]. left. split; [lia|]. exists 0, 1. cbn. splits; try lia. exists 1. cbn. lia.
  - apply (GB 1 6); [lia|]. right. exists 0, 0. split; [lia|]. split; [lia|]. split; [|cbn; lia]. split; [|intros; lia]. exists 2. split; [cbn; lia|]. exists 4. cbn. lia.
Qed.
