(** Properties of the dense output, of the array files and of the writer of blocked matrices (C147 - C149). *)
From Coq Require Import ZifyBool ZifyNat.
From Verif Require Import Base Lib Lib2 Lib3 Spec Check SpecMat SpecSuper M_Super M_Dense L_Util L_Super3 P_Super2.

Section C147.
Context {V : Type} `{DV : Dflt V}.

(** the last entry stored for row [r] of column [c] *)
Definition last_entry (Ap Ai : list nat) (c r q : nat) : Prop :=
  Ap.[c] <= q < Ap.[S c] /\ Ai.[q] = r /\ forall q', q < q' < Ap.[S c] -> Ai.[q'] <> r.

Lemma cell_bound m n c r : c < n -> r < m -> c * m + r < n * m.
Proof. nia. Qed.

Lemma cell_bound' m n c r : c < n -> r < m -> r * n + c < n * m.
Proof. nia. Qed.

Section S.
Variables (m n : nat) (Ap Ai : list nat) (Ax : list V) (sym : bool) (D0 : list V).
Hypothesis W : wf_mat m n Ap Ai.
Hypothesis HX : Ap.[n] <= length Ax.
Hypothesis HD : n * m <= length D0.

(** entry [q] is stored in cell [k] of the dense array *)
Definition hits (q k : nat) : Prop := exists c, c < n /\ Ap.[c] <= q < Ap.[S c] /\ (k = c * m + Ai.[q] \/ (sym = true /\ k = Ai.[q] * n + c)).

Definition dense_inv (Q : nat) (D : list V) : Prop := length D = length D0 /\ forall k, k < length D0 ->
  (exists q, q < Q /\ hits q k /\ (forall q', q < q' < Q -> ~ hits q' k) /\ D.[k] = Ax.[q]) \/
  ((forall q, q < Q -> ~ hits q k) /\ D.[k] = if k <? n * m then dflt else D0.[k]).

Lemma fill_zero_wp (P : list V -> Prop) :
  (forall D, length D = length D0 -> (forall k, k < length D0 -> D.[k] = if k <? n * m then dflt else D0.[k]) -> P D) ->
  wp (fill_zero D0 (n * m)) P.
Proof.
  intros HP. unfold fill_zero.
  apply (wp_for (fun i D => length D = length D0 /\ forall k, k < length D0 -> D.[k] = if k <? i then dflt else D0.[k])); [lia| | |].
  - split; auto.
  - intros i D Hi (L & H). wp1; [lia|]. rewrite upd_length. split; auto. intros k Hk. destruct (Nat.eq_dec k i) as [->|].
    + rewrite aget_upd_eq by lia. destruct (Nat.ltb_spec i (S i)); auto; lia.
    + rewrite aget_upd_ne by lia. rewrite H by auto. destruct (Nat.ltb_spec k i), (Nat.ltb_spec k (S i)); auto; lia.
  - intros D (L & H). apply HP; auto.
Qed.

Lemma hits_col c q k : c < n -> Ap.[c] <= q < Ap.[S c] -> hits q k <-> (k = c * m + Ai.[q] \/ (sym = true /\ k = Ai.[q] * n + c)).
Proof.
  intros Hc Hq. split; [|intros H; exists c; auto]. intros (c' & Hc' & Hq' & H).
  assert (c' = c) as ->; auto.
  destruct W as (_ & _ & M & _ & _). exact (bucket_unique (fun i => Ap.[i]) n c' c q M Hc' Hc Hq' Hq).
Qed.

Lemma dense_inv_step c j D : c < n -> Ap.[c] <= j < Ap.[S c] -> dense_inv j D ->
  dense_inv (S j) (let D1 := upd D (c * m + Ai.[j]) Ax.[j] in if sym then upd D1 (Ai.[j] * n + c) Ax.[j] else D1).
Proof.
  intros Hc Hj (L & H). pose proof W as (W1 & W2 & W3 & W4 & W5).
  pose proof (mono_le (fun i => Ap.[i]) n W3 (S c) n ltac:(lia) ltac:(lia)) as MM. cbv beta in MM.
  pose proof (W5 j ltac:(lia)) as Hr. pose proof (cell_bound m n c Ai.[j] Hc Hr). pose proof (cell_bound' m n c Ai.[j] Hc Hr).
  assert (E : forall k, k < length D0 -> (hits j k /\ (let D1 := upd D (c * m + Ai.[j]) Ax.[j] in if sym then upd D1 (Ai.[j] * n + c) Ax.[j] else D1).[k] = Ax.[j]) \/
     (~ hits j k /\ (let D1 := upd D (c * m + Ai.[j]) Ax.[j] in if sym then upd D1 (Ai.[j] * n + c) Ax.[j] else D1).[k] = D.[k])).
  { intros k Hk. cbv zeta. destruct (Nat.eq_dec k (c * m + Ai.[j])) as [E1|E1].
    - left. split; [apply (hits_col c); auto|]. destruct sym.
      + destruct (Nat.eq_dec k (Ai.[j] * n + c)) as [E2|E2].
        * rewrite <- E2. apply aget_upd_eq. rewrite upd_length. lia.
        * rewrite aget_upd_ne by lia. rewrite <- E1. apply aget_upd_eq. lia.
      + rewrite <- E1. apply aget_upd_eq. lia.
    - destruct (Bool.bool_dec sym true) as [ES|ES].
      + rewrite ES. destruct (Nat.eq_dec k (Ai.[j] * n + c)) as [E2|E2].
        * left. split; [apply (hits_col c); auto|]. rewrite <- E2. apply aget_upd_eq. rewrite upd_length. lia.
        * right. split; [rewrite (hits_col c) by auto; intros [?|(_ & ?)]; lia|]. rewrite !aget_upd_ne by lia. reflexivity.
      + right. split; [rewrite (hits_col c) by auto; intros [?|(? & ?)]; [lia|congruence]|]. destruct sym; [congruence|]. rewrite aget_upd_ne by lia. reflexivity. }
  split; [cbv zeta; destruct sym; rewrite ?upd_length; auto|]. intros k Hk. destruct (E k Hk) as [(E1 & E2)|(E1 & E2)]; rewrite E2.
  - left. exists j. splits; auto. intros q' Hq'. lia.
  - destruct (H k Hk) as [(q & Q1 & Q2 & Q3 & Q4)|(Q1 & Q2)].
    + left. exists q. splits; auto. intros q' Hq'. destruct (Nat.eq_dec q' j) as [->|]; auto. apply Q3. lia.
    + right. split; auto. intros q Hq. destruct (Nat.eq_dec q j) as [->|]; auto. apply Q1. lia.
Qed.

Lemma sparse2dense_wp stype (P : list V -> Prop) : sym = ((stype =? -1) || (stype =? 1))%Z ->
  (forall D, dense_inv Ap.[n] D -> P D) -> wp (sparse2dense m n Ap Ai Ax stype D0) P.
Proof.
  intros ES HP. pose proof W as (W1 & W2 & W3 & W4 & W5). unfold sparse2dense. apply wp_bind. apply fill_zero_wp. intros D L H.
  apply (wp_for (fun c D => dense_inv Ap.[c] D)); [lia| | |auto].
  - split; auto. intros k Hk. right. split; [rewrite W2; lia|]. auto.
  - clear D L H. intros c D [_ Hc] HI. wp1. wp1; [lia|]. wp1. wp1; [lia|].
    pose proof (mono_le (fun i => Ap.[i]) n W3 (S c) n ltac:(lia) ltac:(lia)) as MM. cbv beta in MM.
    apply (wp_for (fun j D => dense_inv j D)); [auto|auto| |auto].
    intros j D' Hj HI'. pose proof (dense_inv_step c j D' Hc Hj HI') as ST. pose proof (W5 j ltac:(lia)) as Hr.
    pose proof (cell_bound m n c Ai.[j] Hc Hr). pose proof (cell_bound' m n c Ai.[j] Hc Hr). destruct HI' as (L & _).
    wp1. wp1; [lia|]. wp1. wp1; [lia|]. wp1. wp1; [lia|]. rewrite <- ES. cbv zeta in ST. destruct sym.
    + wp1; [rewrite upd_length; lia|]. exact ST.
    + cbn [wp]. exact ST.
Qed.
End S.

Lemma cell_unique m c r c' r' : r < m -> r' < m -> c * m + r = c' * m + r' -> c = c' /\ r = r'.
Proof. intros. assert (c = c') by nia. subst. lia. Qed.

(** Any matrix that is not marked symmetric: column after column, zeros where nothing is stored, the last of the entries stored for the
    same place; the memory behind the n * m cells is not touched *)
Theorem C147_dense_general : forall m n Ap Ai (Ax : list V) stype D0, wf_mat m n Ap Ai -> Ap.[n] <= length Ax -> n * m <= length D0 ->
  stype <> 1%Z -> stype <> (-1)%Z ->
  exists D, sparse2dense m n Ap Ai Ax stype D0 = Ok D /\ length D = length D0 /\
    (forall c r, c < n -> r < m -> (exists q, last_entry Ap Ai c r q /\ D.[c * m + r] = Ax.[q]) \/ (~ entry Ap Ai c r /\ D.[c * m + r] = dflt)) /\
    (forall k, n * m <= k -> k < length D0 -> D.[k] = D0.[k]).
Proof.
  intros m n Ap Ai Ax stype D0 W HX HD S1 S2. pose proof W as (W1 & W2 & W3 & W4 & W5).
  assert (ES : false = ((stype =? -1) || (stype =? 1))%Z) by lia.
  pose proof (sparse2dense_wp m n Ap Ai Ax false D0 W HX HD stype _ ES (fun D H => H)) as G. apply wp_ok in G. destruct G as (D & E & L & H).
  exists D. splits; auto.
  - intros c r Hc Hr. pose proof (cell_bound m n c r Hc Hr) as CB. destruct (H (c * m + r) ltac:(lia)) as [(q & Q1 & Q2 & Q3 & Q4)|(Q1 & Q2)].
    + left. exists q. split; auto. destruct Q2 as (c' & C1 & C2 & [C3|(? & _)]); [|congruence].
      destruct (cell_unique m c r c' Ai.[q] Hr (W5 q Q1) C3) as (-> & ->). unfold last_entry. splits; auto; try lia.
      intros q' Hq' E'. pose proof (mono_le (fun i => Ap.[i]) n W3 (S c') n ltac:(lia) ltac:(lia)) as MM. cbv beta in MM.
      apply (Q3 q' ltac:(lia)). exists c'. rewrite E'. splits; auto; lia.
    + right. split.
      * intros (q & K1 & K2). pose proof (mono_le (fun i => Ap.[i]) n W3 (S c) n ltac:(lia) ltac:(lia)) as MM. cbv beta in MM.
        apply (Q1 q ltac:(lia)). exists c. rewrite K2. splits; auto; lia.
      * rewrite Q2. destruct (Nat.ltb_spec (c * m + r) (n * m)); auto; lia.
  - intros k K1 K2. destruct (H k K2) as [(q & Q1 & (c & C1 & C2 & [C3|(? & _)]) & _)|(Q1 & Q2)]; [|congruence|].
    + pose proof (cell_bound m n c Ai.[q] C1 (W5 q Q1)). lia.
    + rewrite Q2. destruct (Nat.ltb_spec k (n * m)); auto; lia.
Qed.

(** A square matrix marked symmetric, whichever triangle is stored: the full matrix, symmetric *)
Theorem C147_dense_symmetric : forall n Ap Ai (Ax : list V) stype D0, wf_csc n Ap Ai -> Ap.[n] <= length Ax -> n * n <= length D0 ->
  stype = 1%Z \/ stype = (-1)%Z ->
  exists D, sparse2dense n n Ap Ai Ax stype D0 = Ok D /\ length D = length D0 /\
    (forall c r, c < n -> r < n -> D.[c * n + r] = D.[r * n + c] /\
       ((exists q, (last_entry Ap Ai c r q \/ last_entry Ap Ai r c q) /\ D.[c * n + r] = Ax.[q]) \/
        (~ entry Ap Ai c r /\ ~ entry Ap Ai r c /\ D.[c * n + r] = dflt))) /\
    (forall k, n * n <= k -> k < length D0 -> D.[k] = D0.[k]).
Proof.
  intros n Ap Ai Ax stype D0 W HX HD S1. pose proof W as (W1 & W2 & W3 & W4 & W5).
  assert (ES : true = ((stype =? -1) || (stype =? 1))%Z) by lia.
  pose proof (sparse2dense_wp n n Ap Ai Ax true D0 W HX HD stype _ ES (fun D H => H)) as G. apply wp_ok in G. destruct G as (D & E & L & H).
  exists D.
  assert (MM : forall c, c < n -> Ap.[S c] <= Ap.[n]) by (intros c Hc; pose proof (mono_le (fun i => Ap.[i]) n W3 (S c) n ltac:(lia) ltac:(lia)); auto).
  assert (HH : forall c r q, c < n -> r < n -> q < Ap.[n] -> hits n n Ap Ai true q (c * n + r) <->
      ((Ap.[c] <= q < Ap.[S c] /\ Ai.[q] = r) \/ (Ap.[r] <= q < Ap.[S r] /\ Ai.[q] = c))).
  { intros c r q Hc Hr Hq. split.
    - intros (c' & C1 & C2 & [C3|(_ & C3)]).
      + destruct (cell_unique n c r c' Ai.[q] Hr (W5 q Hq) C3) as (-> & ->). auto.
      + destruct (cell_unique n c r Ai.[q] c' Hr C1 C3) as (-> & ->). auto.
    - intros [(Q1 & Q2)|(Q1 & Q2)]; [exists c|exists r]; rewrite Q2; splits; auto; lia. }
  splits; auto.
  - intros c r Hc Hr. pose proof (cell_bound n n c r Hc Hr) as CB. pose proof (cell_bound n n r c Hr Hc) as CB'. split.
    + destruct (H (c * n + r) ltac:(lia)) as [(q & Q1 & Q2 & Q3 & Q4)|(Q1 & Q2)], (H (r * n + c) ltac:(lia)) as [(q' & Q1' & Q2' & Q3' & Q4')|(Q1' & Q2')].
      * rewrite Q4, Q4'. f_equal. destruct (Nat.lt_trichotomy q q') as [LT|[?|LT]]; auto; exfalso.
        -- apply (Q3 q' ltac:(lia)). apply HH; auto. apply HH in Q2'; auto. tauto.
        -- apply (Q3' q ltac:(lia)). apply HH; auto. apply HH in Q2; auto. tauto.
      * exfalso. apply (Q1' q Q1). apply HH; auto. apply HH in Q2; auto. tauto.
      * exfalso. apply (Q1 q' Q1'). apply HH; auto. apply HH in Q2'; auto. tauto.
      * rewrite Q2, Q2'. destruct (Nat.ltb_spec (c * n + r) (n * n)), (Nat.ltb_spec (r * n + c) (n * n)); auto; lia.
    + destruct (H (c * n + r) ltac:(lia)) as [(q & Q1 & Q2 & Q3 & Q4)|(Q1 & Q2)].
      * left. exists q. split; auto. apply HH in Q2; auto. destruct Q2 as [(A1 & A2)|(A1 & A2)]; [left|right]; unfold last_entry; splits; auto; try lia.
        -- intros q' Hq' E'. pose proof (MM c Hc). apply (Q3 q' ltac:(lia)). apply HH; [auto|auto|lia|]; lia.
        -- intros q' Hq' E'. pose proof (MM r Hr). apply (Q3 q' ltac:(lia)). apply HH; [auto|auto|lia|]; lia.
      * right. splits.
        -- intros (q & K1 & K2). pose proof (MM c Hc). apply (Q1 q ltac:(lia)). apply HH; [auto|auto|lia|]; lia.
        -- intros (q & K1 & K2). pose proof (MM r Hr). apply (Q1 q ltac:(lia)). apply HH; [auto|auto|lia|]; lia.
        -- rewrite Q2. destruct (Nat.ltb_spec (c * n + r) (n * n)); auto; lia.
  - intros k K1 K2. destruct (H k K2) as [(q & Q1 & (c & C1 & C2 & [C3|(_ & C3)]) & _)|(Q1 & Q2)].
    + pose proof (cell_bound n n c Ai.[q] C1 (W5 q Q1)). lia.
    + pose proof (cell_bound n n Ai.[q] c (W5 q Q1) C1). lia.
    + rewrite Q2. destruct (Nat.ltb_spec k (n * n)); auto; lia.
Qed.
End C147.
Print Assumptions C147_dense_general.
Print Assumptions C147_dense_symmetric.

(** marked symmetric but not square: the entry in row 2 of column 0 also appears in row 1 of column 1 *)
Theorem C147_not_square_refuted : exists m n Ap Ai (Ax : list Z) D, wf_mat m n Ap Ai /\ Ap.[n] <= length Ax /\
  sparse2dense m n Ap Ai Ax (-1) (repeat 8%Z (n * m)) = Ok D /\ exists c r, c < n /\ r < m /\ ~ entry Ap Ai c r /\ ~ entry Ap Ai r c /\ D.[c * m + r] <> 0%Z.
Proof.
  exists 3, 2, [0; 2; 2], [0; 2], [5; 7]%Z, [5; 0; 7; 0; 7; 0]%Z. splits; auto.
  - unfold wf_mat. cbn [length]. splits; auto; try lia.
    + intros [|[|i]] Hi; vm_compute; lia.
    + intros [|[|k]] Hk; vm_compute; try lia. vm_compute in Hk. lia.
  - exists 1, 1. splits; auto; try lia; try (intros (k & K & _); vm_compute in K; lia). vm_compute. discriminate.
Qed.
Print Assumptions C147_not_square_refuted.

(** a rectangular matrix with an entry stored twice, and a symmetric one with a dirty array of seven cells behind *)
Example C147_case : wf_mat 3 2 [0; 3; 4] [2; 0; 2; 1] /\ sparse2dense 3 2 [0; 3; 4] [2; 0; 2; 1] [4; 5; 6; 7]%Z 0 (repeat 9 7)%Z = Ok [5; 0; 6; 0; 7; 0; 9]%Z /\
  wf_csc 2 [0; 2; 3] [0; 1; 1] /\ sparse2dense 2 2 [0; 2; 3] [0; 1; 1] [4; 5; 6]%Z (-1) (repeat 9 5)%Z = Ok [4; 5; 5; 6; 9]%Z.
Proof.
  splits; try (vm_compute; reflexivity).
  - unfold wf_mat. cbn [length]. splits; auto; try lia.
    + intros [|[|i]] Hi; vm_compute; lia.
    + intros [|[|[|[|k]]]] Hk; vm_compute; try lia. vm_compute in Hk. lia.
  - apply wf_cscb_ok. vm_compute. reflexivity.
Qed.

(** * C148 *)

Section C148.
Context {V : Type} `{DV : Dflt V}.

(** lines of a coordinate file: row, column, value; [increasing]: by column, then by row, no place twice *)
Definition increasing (lines : list (nat * nat * V)) : Prop := forall t t', t < t' < length lines ->
  snd (fst lines.[t]) < snd (fst lines.[t']) \/ (snd (fst lines.[t]) = snd (fst lines.[t']) /\ fst (fst lines.[t]) < fst (fst lines.[t'])).

Section S.
Variables (round : V -> V) (n : nat) (Ap Ai : list nat) (Ax : list V) (M : @bcsc V).
Hypothesis C : block_cuts n (b_nodes M) (b_super M).
Hypothesis B : blocks_exact Ap Ai Ax (b_nodes M) (b_super M) (b_nnz M) (b_p M) (b_i M) (b_x M) (b_nrows M).

Let p := b_p M.
Let nr s := (b_nrows M).[s].
Let su s := (b_super M).[s].
Let w s := su (S s) - su s.

Definition line (s j pos : nat) : nat * nat * V := ((b_i M).[pos] + 1, su s + j + 1, round (b_x M).[pos]).

Definition lines_ok (i j k : nat) (out : list (nat * nat * V)) : Prop := length out = p.[i] + j * nr i + k /\
  (forall s j k, s < i -> j < w s -> k < nr s -> out.[p.[s] + j * nr s + k] = line s j (p.[s] + j * nr s + k)) /\
  (forall j' k', j' < j -> k' < nr i -> out.[p.[i] + j' * nr i + k'] = line i j' (p.[i] + j' * nr i + k')) /\
  (forall k', k' < k -> out.[p.[i] + j * nr i + k'] = line i j (p.[i] + j * nr i + k')).

Lemma p_next s : s < b_nodes M -> p.[S s] = p.[s] + w s * nr s.
Proof. intros Hs. destruct B as (_ & _ & _ & _ & _ & _ & H). destruct (H s Hs) as (rows & _ & E & _). exact E. Qed.

Lemma p_le s t : s <= t -> t <= b_nodes M -> p.[s] <= p.[t].
Proof. apply (mono_le (fun i => p.[i])). intros i Hi. rewrite p_next by auto. lia. Qed.

Lemma p_last : p.[b_nodes M] = b_nnz M.
Proof. destruct B as (_ & _ & H & _). exact H. Qed.

Lemma w_pos s : s < b_nodes M -> 0 < w s.
Proof. intros Hs. destruct C as (_ & _ & _ & H). specialize (H s Hs). unfold w, su. lia. Qed.

Lemma BCSC_to_mtx_wp m : wp (BCSC_to_mtx round m n M) (fun '(a, b, c, out) => a = m /\ b = n /\ c = b_nnz M /\ lines_ok (b_nodes M) 0 0 out).
Proof.
  pose proof C as (C1 & C2 & C3 & C4). pose proof B as (B1 & B2 & B3 & B4 & B5 & B6 & B7).
  unfold BCSC_to_mtx. apply wp_bind. apply (wp_for (fun i out => lines_ok i 0 0 out)); [lia| | |].
  - unfold lines_ok. fold p in B2. rewrite B2. splits; auto; intros; lia.
  - intros i out [_ Hi] H. wp1. wp1; [lia|]. wp1. wp1; [lia|]. wp1. wp1; [lia|]. cbv zeta. wp1. wp1; [lia|].
    fold p. change ((b_super M).[S i] - (b_super M).[i]) with (w i). pose proof (w_pos i Hi) as Hw.
    destruct (Nat.eqb_spec (w i) 0); [lia|]. rewrite p_next by auto.
    replace ((p.[i] + w i * nr i - p.[i]) / w i) with (nr i) by (replace (p.[i] + w i * nr i - p.[i]) with (nr i * w i) by lia; rewrite Nat.div_mul; lia).
    apply (wp_for (fun j out => lines_ok i j 0 out)); [lia|exact H| |].
    + clear out H. intros j out [_ Hj] H. apply (wp_for (fun k out => lines_ok i j k out)); [lia|exact H| |].
      * clear out H. intros k out [_ Hk] (H1 & H2 & H3 & H4).
        assert (PB : p.[i] + j * nr i + k < b_nnz M).
        { pose proof (p_le (S i) (b_nodes M) ltac:(lia) ltac:(lia)) as PL. rewrite p_last, p_next in PL by auto. nia. }
        wp1. wp1; [lia|]. wp1. wp1; [lia|]. cbn [wp]. unfold lines_ok. rewrite app_length. cbn [length]. splits; [lia| | |].
        -- intros s j' k' Hs Hj' Hk'. pose proof (p_le (S s) i ltac:(lia) ltac:(lia)) as PL. rewrite p_next in PL by lia.
           rewrite aget_app1 by (rewrite H1; nia). apply H2; auto.
        -- intros j' k' Hj' Hk'. rewrite aget_app1 by (rewrite H1; nia). apply H3; auto.
        -- intros k' Hk'. destruct (Nat.eq_dec k' k) as [->|].
           ++ rewrite <- H1, aget_app_last, H1. reflexivity.
           ++ rewrite aget_app1 by lia. apply H4. lia.
      * clear out H. intros out (H1 & H2 & H3 & H4). unfold lines_ok. splits; auto; [lia| |intros; lia].
        intros j' k' Hj' Hk'. destruct (Nat.eq_dec j' j) as [->|]; [apply H4; auto|apply H3; auto; lia].
    + clear out H. intros out (H1 & H2 & H3 & H4). unfold lines_ok. rewrite p_next by auto. splits; try (intros; lia).
      intros s j k Hs Hj Hk. destruct (Nat.eq_dec s i) as [->|]; [apply H3; auto|apply H2; auto; lia].
  - intros out H. cbn [wp]. auto.
Qed.

Lemma position t : t < b_nnz M -> exists s j k, s < b_nodes M /\ j < w s /\ k < nr s /\ t = p.[s] + j * nr s + k.
Proof.
  intros Ht. rewrite <- p_last in Ht.
  destruct (bucket_exists (fun i => p.[i]) (b_nodes M) t) as (s & Hs & Hb).
  - pose proof B as (_ & B2 & _). fold p in B2. lia.
  - auto.
  - cbv beta in Hb. rewrite p_next in Hb by auto. destruct (Nat.eq_dec (nr s) 0) as [E|E]; [rewrite E in Hb; lia|].
    exists s, ((t - p.[s]) / nr s), ((t - p.[s]) mod nr s). pose proof (Nat.div_mod (t - p.[s]) (nr s) E). pose proof (Nat.mod_upper_bound (t - p.[s]) (nr s) E).
    splits; auto; [|lia]. apply Nat.div_lt_upper_bound; auto. lia.
Qed.

Lemma block_of j : j < n -> exists s, s < b_nodes M /\ su s <= j < su (S s).
Proof.
  intros Hj. destruct C as (C1 & C2 & C3 & C4). destruct (bucket_exists su (b_nodes M) j) as (s & Hs & H).
  - unfold su. lia.
  - unfold su. lia.
  - exists s. auto.
Qed.

Lemma su_le s t : s <= t -> t <= b_nodes M -> su s <= su t.
Proof. destruct C as (C1 & C2 & C3 & C4). apply (mono_le su). intros i Hi. specialize (C4 i Hi). unfold su. lia. Qed.

Lemma bcsc_lines m : exists lines, BCSC_to_mtx round m n M = Ok (m, n, b_nnz M, lines) /\ length lines = b_nnz M /\
  (forall t, t < length lines -> exists j r v, j < n /\ lines.[t] = (r + 1, j + 1, round v) /\ value_at Ap Ai Ax j r v) /\
  (forall j r, j < n -> entry Ap Ai j r -> exists t, t < length lines /\ fst lines.[t] = (r + 1, j + 1)) /\
  increasing lines.
Proof.
  pose proof C as (C1 & C2 & C3 & C4). pose proof B as (B1 & B2 & B3 & B4 & B5 & B6 & B7).
  pose proof (BCSC_to_mtx_wp m) as G. apply wp_ok in G. destruct G as ([[[a b] c] lines] & E & -> & -> & -> & H1 & H2 & _).
  rewrite p_last in H1. replace (b_nnz M + 0 * nr (b_nodes M) + 0) with (b_nnz M) in H1 by lia. exists lines. rewrite H1. splits; auto.
  - intros t Ht. destruct (position t Ht) as (s & j & k & Hs & Hj & Hk & ->). rewrite H2 by auto.
    destruct (B7 s Hs) as (rows & R1 & R2 & R3 & R4 & R5). pose proof (su_le (S s) (b_nodes M) ltac:(lia) ltac:(lia)) as SL.
    destruct (R5 (su s + j) k) as (R6 & R7); [unfold w, su in *; lia|unfold nr in Hk; lia|].
    fold (su s) in R6, R7. replace (su s + j - su s) with j in R6, R7 by lia. rewrite R1 in R6, R7. fold p (nr s) in R6, R7.
    exists (su s + j), rows.[k], (b_x M).[p.[s] + j * nr s + k]. splits.
    + unfold w, su in *. lia.
    + unfold line. rewrite R6. reflexivity.
    + exact R7.
  - intros j r Hj He. destruct (block_of j Hj) as (s & Hs & Hb). destruct (B7 s Hs) as (rows & R1 & R2 & R3 & R4 & R5).
    assert (Hr : In r rows) by (apply R4; exists j; auto). apply In_aget in Hr. destruct Hr as (k & Hk & <-).
    destruct (R5 j k Hb Hk) as (R6 & _). rewrite R1 in R6. fold p (nr s) (su s) in R6.
    exists (p.[s] + (j - su s) * nr s + k). unfold nr in *. rewrite R1 in Hk. pose proof (p_next s Hs) as PN. unfold w, nr in PN.
    pose proof (p_le (S s) (b_nodes M) ltac:(lia) ltac:(lia)) as PL. rewrite p_last in PL. split; [nia|].
    rewrite H2; auto; [|unfold w; lia]. unfold line, nr. rewrite R6. cbn [fst]. f_equal. lia.
  - intros t t' Ht. rewrite H1 in Ht. destruct (position t ltac:(lia)) as (s & j & k & Hs & Hj & Hk & E1). destruct (position t' ltac:(lia)) as (s' & j' & k' & Hs' & Hj' & Hk' & E2).
    assert (Le : s <= s'). { destruct (le_lt_dec s s') as [L|L]; auto. pose proof (p_le (S s') s ltac:(lia) ltac:(lia)) as PL. rewrite p_next in PL by auto. nia. }
    rewrite E1, E2, !H2 by auto. unfold line. cbn [fst snd].
    destruct (Nat.eq_dec s s') as [<-|NE].
    + assert (J : j <= j') by nia. destruct (Nat.eq_dec j j') as [<-|]; [right|left; lia]. split; auto.
      destruct (B7 s Hs) as (rows & R1 & R2 & R3 & R4 & R5).
      destruct (R5 (su s + j) k) as (R6 & _); [unfold w, su in *; lia|unfold nr in Hk; lia|].
      destruct (R5 (su s + j) k') as (R7 & _); [unfold w, su in *; lia|unfold nr in Hk'; lia|].
      fold (su s) in R6, R7. replace (su s + j - su s) with j in R6, R7 by lia. rewrite R1 in R6, R7. fold p (nr s) in R6, R7.
      rewrite R6, R7. assert (K : k < k') by nia. pose proof (R3 k k' K ltac:(unfold nr in *; lia)). lia.
    + left. pose proof (su_le (S s) s' ltac:(lia) ltac:(lia)). unfold w in *. lia.
Qed.
End S.

(** The file of any blocked matrix that holds the blocks of [A]: as many lines as the size line says, each a value of [A] (zero for the
    padding), every entry of [A] among them, by column and row *)
Theorem C148_written_blocks : forall (round : V -> V) m n Ap Ai (Ax : list V) nodes super, wf_csc n Ap Ai -> Ap.[n] <= length Ax -> sorted_cols n Ap Ai ->
  (0 < n -> Ap.[n - 1] < Ap.[n] /\ Ai.[Ap.[n] - 1] = n - 1) -> block_cuts n nodes super ->
  exists M lines, newBCSC n Ap Ai Ax nodes super = Ok M /\ BCSC_to_mtx round m n M = Ok (m, n, length lines, lines) /\
  (forall t, t < length lines -> exists j r v, j < n /\ lines.[t] = (r + 1, j + 1, round v) /\ value_at Ap Ai Ax j r v) /\
  (forall j r, j < n -> entry Ap Ai j r -> exists t, t < length lines /\ fst lines.[t] = (r + 1, j + 1)) /\
  increasing lines.
Proof.
  intros round m n Ap Ai Ax nodes super W LX SC LAST C. destruct (C78_format_exact n Ap Ai Ax nodes super W LX SC LAST C) as (M & E & E1 & E2 & BE).
  pose proof C as (C1 & C2 & C3 & C4).
  assert (AG : forall i, i <= nodes -> (firstn (nodes + 1) super).[i] = super.[i]) by (intros i Hi; apply aget_firstn; lia).
  assert (C' : block_cuts n (b_nodes M) (b_super M)).
  { rewrite E1, E2. unfold block_cuts. rewrite firstn_length, !AG by lia. splits; auto; [lia|]. intros s Hs. rewrite !AG by lia. auto. }
  assert (BE' : blocks_exact Ap Ai Ax (b_nodes M) (b_super M) (b_nnz M) (b_p M) (b_i M) (b_x M) (b_nrows M)).
  { rewrite E1, E2. destruct BE as (G3 & G4 & G5 & G6 & G7 & G8 & G9). unfold blocks_exact. splits; auto. intros s Hs. specialize (G9 s Hs). rewrite !AG by lia. auto. }
  destruct (bcsc_lines round n Ap Ai Ax M C' BE' m) as (lines & L1 & L2 & L3 & L4 & L5). exists M, lines. rewrite L2 in *. splits; auto.
Qed.

(** the same with the supernodes that the class finds itself *)
Theorem C148_written_detected : forall (round : V -> V) m n Ap Ai (Ax : list V), wf_csc n Ap Ai -> Ap.[n] <= length Ax -> sorted_cols n Ap Ai -> diag_first n Ap Ai ->
  exists M lines, newBCSC_auto n Ap Ai Ax = Ok M /\ BCSC_to_mtx round m n M = Ok (m, n, length lines, lines) /\
  (forall t, t < length lines -> exists j r v, j < n /\ lines.[t] = (r + 1, j + 1, round v) /\ value_at Ap Ai Ax j r v) /\
  (forall j r, j < n -> entry Ap Ai j r -> exists t, t < length lines /\ fst lines.[t] = (r + 1, j + 1)) /\
  increasing lines.
Proof.
  intros round m n Ap Ai Ax W LX SC D. destruct (C78_detected_format n Ap Ai Ax W LX SC D) as (M & E & E1 & R & BE & _).
  pose proof R as (R1 & R2 & R3 & R4).
  assert (C' : block_cuts n (b_nodes M) (b_super M)).
  { unfold block_cuts. replace (b_nodes M) with (length (b_super M) - 1) by lia. splits; auto; [lia|]. intros s Hs. destruct (R4 s ltac:(lia)) as (H & _). lia. }
  destruct (bcsc_lines round n Ap Ai Ax M C' BE m) as (lines & L1 & L2 & L3 & L4 & L5). exists M, lines. rewrite L2 in *. splits; auto.
Qed.
End C148.
Print Assumptions C148_written_blocks.
Print Assumptions C148_written_detected.

(** blocks {0,1} and {2,3}: ten lines for seven entries, three of them zeros *)
Example C148_case : exists M, newBCSC 4 [0;2;4;6;7] [0;2;1;2;2;3;3] [1;2;3;4;5;6;7]%Z 2 [0;2;4] = Ok M /\
  BCSC_to_mtx (fun z => z) 4 4 M = Ok (4, 4, 10,
    [(1,1,1%Z); (2,1,0%Z); (3,1,2%Z); (1,2,0%Z); (2,2,3%Z); (3,2,4%Z); (3,3,5%Z); (4,3,6%Z); (3,4,0%Z); (4,4,7%Z)]).
Proof. eexists. split; [vm_compute; reflexivity|]. vm_compute. reflexivity. Qed.

(** * C149 *)

Section C149.
Context {V : Type} `{DV : Dflt V}.

(** the [i]-th number of the file, if the words up to it are all numbers; zero otherwise *)
Fixpoint number_at (ws : list (option V)) (i : nat) : V :=
  match ws, i with
  | Some v :: _, 0 => v
  | Some _ :: r, S i => number_at r i
  | _, _ => dflt
  end.

Lemma read_array_wp m n ws (P : list V -> Prop) :
  (forall a, length a = m * n -> (forall i, i < m * n -> a.[i] = number_at ws i) -> P a) -> wp (read_array true true m n ws) P.
Proof.
  intros HP. unfold read_array. cbn [negb]. apply wp_bind.
  assert (L0 : length (new_dense (V := V) m n) = m * n).
  { unfold new_dense. destruct (Nat.ltb_spec 0 m), (Nat.ltb_spec 0 n); cbn [andb]; rewrite ?repeat_length; auto; cbn [length]; [replace n with 0 by lia; lia|replace m with 0 by lia; lia|replace m with 0 by lia; lia]. }
  assert (Z0 : forall i, (new_dense (V := V) m n).[i] = dflt).
  { intros i. unfold new_dense. destruct ((0 <? m) && (0 <? n)); [|destruct i; reflexivity].
    destruct (le_lt_dec (m * n) i); [apply nth_overflow; rewrite repeat_length; auto|apply aget_repeat; auto]. }
  apply (wp_for (fun i '(a, st) => length a = m * n /\ (forall k, k < i -> a.[k] = number_at ws k) /\ (forall k, i <= k -> a.[k] = dflt) /\
     (forall k, number_at ws (i + k) = let '(r, fail) := st in if fail : bool then dflt else number_at r k))); [lia| | |].
  - splits; auto. intros k Hk. lia.
  - intros i [a [r f]] [_ Hi] (L & H1 & H2 & H3). unfold extract. destruct f.
    + wp1. cbn [wp]. splits; auto.
      * intros k Hk. destruct (Nat.eq_dec k i) as [->|]; [|apply H1; lia]. rewrite H2 by lia. specialize (H3 0). rewrite Nat.add_0_r in H3. auto.
      * intros k Hk. apply H2. lia.
      * intros k. replace (S i + k) with (i + S k) by lia. apply (H3 (S k)).
    + destruct r as [|[v|] r].
      * wp1. cbn [wp]. splits; auto.
        -- intros k Hk. destruct (Nat.eq_dec k i) as [->|]; [|apply H1; lia]. rewrite H2 by lia. specialize (H3 0). rewrite Nat.add_0_r in H3. auto.
        -- intros k Hk. apply H2. lia.
        -- intros k. replace (S i + k) with (i + S k) by lia. apply (H3 (S k)).
      * wp1. wp1; [lia|]. cbn [wp]. rewrite upd_length. splits; auto.
        -- intros k Hk. destruct (Nat.eq_dec k i) as [->|]; [|rewrite aget_upd_ne by lia; apply H1; lia]. rewrite aget_upd_eq by lia. specialize (H3 0). rewrite Nat.add_0_r in H3. auto.
        -- intros k Hk. rewrite aget_upd_ne by lia. apply H2. lia.
        -- intros k. replace (S i + k) with (i + S k) by lia. apply (H3 (S k)).
      * wp1. wp1; [lia|]. cbn [wp]. rewrite upd_length. splits; auto.
        -- intros k Hk. destruct (Nat.eq_dec k i) as [->|]; [|rewrite aget_upd_ne by lia; apply H1; lia]. rewrite aget_upd_eq by lia. specialize (H3 0). rewrite Nat.add_0_r in H3. auto.
        -- intros k Hk. rewrite aget_upd_ne by lia. apply H2. lia.
        -- intros k. replace (S i + k) with (i + S k) by lia. apply (H3 (S k)).
  - intros [a st] (L & H1 & _). cbn [wp]. apply HP; auto.
Qed.

Lemma print_dense_wp row col (a : list V) (P : list (list V) -> Prop) : row * col <= length a ->
  (forall out, length out = row -> (forall i, i < row -> length out.[i] = col /\ forall j, j < col -> out.[i].[j] = a.[i + j * row]) -> P out) ->
  wp (print_dense row col a) P.
Proof.
  intros La HP. unfold print_dense.
  apply (wp_for (fun i out => length out = i /\ forall i', i' < i -> length out.[i'] = col /\ forall j, j < col -> out.[i'].[j] = a.[i' + j * row])); [lia| | |].
  - split; auto. intros; lia.
  - intros i out [_ Hi] (L & H). apply wp_bind.
    apply (wp_for (fun j l => length l = j /\ forall j', j' < j -> l.[j'] = a.[i + j' * row])); [lia| | |].
    + split; auto. intros; lia.
    + intros j l [_ Hj] (L' & H'). wp1. wp1; [nia|]. cbn [wp]. rewrite app_length. cbn [length]. split; [lia|].
      intros j' Hj'. destruct (Nat.eq_dec j' j) as [->|]; [rewrite <- L'; apply aget_app_last|rewrite aget_app1 by lia; apply H'; lia].
    + intros l (L' & H'). cbn [wp]. rewrite app_length. cbn [length]. split; [lia|]. intros i' Hi'.
      destruct (Nat.eq_dec i' i) as [->|]; [rewrite <- L, aget_app_last; rewrite L; auto|rewrite aget_app1 by lia; apply H; lia].
  - intros out (L & H). apply HP; auto.
Qed.

(** Any rest of a file: no access outside of the array; the numbers up to the first word that is none, zeros behind it *)
Theorem C149_array_total : forall m n (ws : list (option V)), exists a, read_array true true m n ws = Ok a /\ length a = m * n /\
  forall i, i < m * n -> a.[i] = number_at ws i.
Proof.
  intros m n ws. pose proof (read_array_wp m n ws (fun a => length a = m * n /\ forall i, i < m * n -> a.[i] = number_at ws i) (fun a L H => conj L H)) as G.
  apply wp_ok in G. destruct G as (a & E & H). exists a. auto.
Qed.

Theorem C149_array_rejects : forall real array m n (ws : list (option V)), read_array real array m n ws = Err Throw <-> real = false \/ array = false.
Proof.
  intros real array m n ws. destruct real, array; try (unfold read_array; cbn [negb]; tauto). destruct (C149_array_total m n ws) as (a & E & _). rewrite E. split; [discriminate|intros [?|?]; discriminate].
Qed.

(** An array file of an m x n matrix lists it column by column: what is printed after reading it is that matrix, line by line *)
Theorem C149_array_matrix : forall m n (X : nat -> nat -> V) (rest : list (option V)),
  exists a, read_array true true m n (map (fun k => Some (X (k mod m) (k / m))) (seq 0 (m * n)) ++ rest) = Ok a /\
    print_dense m n a = Ok (map (fun i => map (fun j => X i j) (seq 0 n)) (seq 0 m)).
Proof.
  intros m n X rest. set (ws := map (fun k => Some (X (k mod m) (k / m))) (seq 0 (m * n)) ++ rest).
  destruct (C149_array_total m n ws) as (a & E & L & H). exists a. split; auto.
  assert (N : forall i, i < m * n -> number_at ws i = X (i mod m) (i / m)).
  { assert (GEN : forall c f (rest : list (option V)) s i, i < c -> number_at (map (fun k => Some (f k)) (seq s c) ++ rest) i = f (s + i)).
    { induction c as [|c IH]; intros f rest' s i Hi; [lia|]. cbn [seq map app]. destruct i as [|i]; cbn [number_at]; [now rewrite Nat.add_0_r|].
      rewrite IH by lia. f_equal. lia. }
    intros i Hi. unfold ws. rewrite (GEN (m * n) (fun k => X (k mod m) (k / m))) by auto. reflexivity. }
  pose proof (print_dense_wp m n a _ ltac:(lia) (fun out L H => conj L H)) as G. apply wp_ok in G. destruct G as (out & Eo & Lo & Ho). rewrite Eo. f_equal.
  apply list_ext; [rewrite map_length, seq_length; auto|]. intros i Hi. destruct (Ho i ltac:(lia)) as (L1 & H1).
  rewrite (aget_map_seq (fun i => map (fun j => X i j) (seq 0 n))) by lia.
  apply list_ext; [rewrite map_length, seq_length; auto|]. intros j Hj. rewrite H1 by lia. rewrite (aget_map_seq (fun j => X i j)) by lia.
  rewrite H, N by nia. rewrite Nat.mod_add, Nat.mod_small, Nat.div_add, Nat.div_small by lia. reflexivity.
Qed.
End C149.
Print Assumptions C149_array_total.
Print Assumptions C149_array_rejects.
Print Assumptions C149_array_matrix.

(** an array file of a symmetric matrix lists the lower triangle only; the shape in the header is not looked at *)
Theorem C149_symmetric_array_refuted : exists n (X : nat -> nat -> Z) a rows, (forall i j, X i j = X j i) /\
  read_array true true n n (flat_map (fun j => map (fun i => Some (X i j)) (seq j (n - j))) (seq 0 n)) = Ok a /\ print_dense n n a = Ok rows /\
  rows <> map (fun i => map (fun j => X i j) (seq 0 n)) (seq 0 n).
Proof.
  exists 2, (fun i j => Z.of_nat (i + j + 1)), [1; 2; 3; 0]%Z, [[1; 3]; [2; 0]]%Z. splits; try (vm_compute; reflexivity).
  - intros i j. f_equal. lia.
  - vm_compute. discriminate.
Qed.
Print Assumptions C149_symmetric_array_refuted.

(** a 2 x 3 file; a word that is no number ends the reading *)
Example C149_case : read_array true true 2 3 [Some 1; Some 2; Some 3; Some 4; Some 5; Some 6; Some 7]%Z = Ok [1; 2; 3; 4; 5; 6]%Z /\
  print_dense 2 3 [1; 2; 3; 4; 5; 6]%Z = Ok [[1; 3; 5]; [2; 4; 6]]%Z /\
  read_array true true 2 2 [Some 1; None; Some 3; Some 4]%Z = Ok [1; 0; 0; 0]%Z.
Proof. vm_compute. auto. Qed.
