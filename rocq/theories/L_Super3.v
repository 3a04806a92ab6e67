(** Proofs about the blocked format. *)
From Coq Require Import ZifyBool ZifyNat.
From Verif Require Import Base Lib Lib2 Lib3 Spec SpecSuper M_Super L_Super.

Lemma sorted_lt_ext (l l' : list nat) : sorted_lt l -> sorted_lt l' -> (forall x, In x l <-> In x l') -> l = l'.
Proof.
  revert l'. induction l as [|x t IH]; intros [|y t'] S1 S2 H; auto.
  - exfalso. apply (H y). now left.
  - exfalso. apply (H x). now left.
  - apply sorted_lt_cons in S1, S2. destruct S1 as (S1 & S1'), S2 as (S2 & S2').
    assert (x = y).
    { destruct (proj1 (H x) (or_introl eq_refl)) as [E|E]; auto. destruct (proj2 (H y) (or_introl eq_refl)) as [E'|E']; auto.
      specialize (S1 y E'). specialize (S2 x E). lia. }
    subst y. f_equal. apply IH; auto. intros z. split; intros Hz.
    + destruct (proj1 (H z) (or_intror Hz)) as [<-|E]; auto. specialize (S1 x Hz). lia.
    + destruct (proj2 (H z) (or_intror Hz)) as [<-|E]; auto. specialize (S2 x Hz). lia.
Qed.

Section Format.
Variables (n : nat) (Ap Ai : list nat).
Hypothesis W : wf_csc n Ap Ai.

(** the rows of columns [sb..se) *)
Definition rows_of (sb se : nat) : list nat := uniq (isort (flat_map (column Ap Ai) (seq sb (se - sb)))).

Lemma column_In u x : u < n -> (In x (column Ap Ai u) <-> entry Ap Ai u x).
Proof.
  intros Hu. destruct (ptr_le n Ap Ai W u Hu) as (P1 & P2 & P3). unfold column, entry. rewrite In_slice by lia. split.
  - intros (q & H1 & H2). exists q. split; auto.
  - intros (q & H1 & H2). exists q. split; auto.
Qed.

Lemma rows_of_In sb se r : se <= n -> (In r (rows_of sb se) <-> exists j, sb <= j < se /\ entry Ap Ai j r).
Proof.
  intros He. unfold rows_of. rewrite uniq_In, isort_In, in_flat_map. split.
  - intros (j & H1 & H2). apply in_seq in H1. apply column_In in H2; [|lia]. exists j. split; auto. lia.
  - intros (j & H1 & H2). exists j. rewrite in_seq, column_In by lia. split; auto. lia.
Qed.

Lemma rows_of_sorted sb se : sorted_lt (rows_of sb se).
Proof. apply uniq_sorted, isort_sorted. Qed.

Lemma entry_lt j r : j < n -> entry Ap Ai j r -> r < n.
Proof.
  intros Hj (q & Hq & <-). destruct (ptr_le n Ap Ai W j Hj) as (P1 & P2 & P3). destruct W as (_ & _ & _ & _ & W5). apply W5. lia.
Qed.

Lemma nodup_bound (l : list nat) : NoDup l -> (forall x, In x l -> x < n) -> length l <= n.
Proof.
  intros H1 H2. rewrite <- (seq_length n 0). apply NoDup_incl_length; auto. intros x Hx. apply in_seq. specialize (H2 x Hx). lia.
Qed.

Lemma rows_of_length sb se : se <= n -> length (rows_of sb se) <= n.
Proof.
  intros He. apply nodup_bound; [apply sorted_lt_NoDup, rows_of_sorted|]. intros x Hx. apply rows_of_In in Hx; auto.
  destruct Hx as (j & Hj & E). apply (entry_lt j); auto. lia.
Qed.

Lemma gather_rows_wp cap sb se (Q : list bool * list nat -> Prop) : sb <= se -> se <= n -> (forall k, cap = Some k -> n <= k) ->
  (forall inb rows, length inb = n -> (forall r, r < n -> (inb.[r] = true <-> In r rows)) -> isort rows = rows_of sb se -> Q (inb, rows)) ->
  wp (gather_rows cap Ap Ai sb se (repeat false n)) Q.
Proof.
  intros Hsb Hse Hcap HQ. pose proof W as (W1 & W2 & W3 & W4 & W5). unfold gather_rows.
  apply wp_for with (I := fun j (st : list bool * list nat) => let '(inb, rows) := st in length inb = n /\ NoDup rows /\
    (forall r, r < n -> (inb.[r] = true <-> In r rows)) /\ forall r, In r rows <-> exists j', sb <= j' < j /\ entry Ap Ai j' r); [lia| | |].
  - splits; auto.
    + apply repeat_length.
    + constructor.
    + intros r Hr. rewrite aget_repeat by lia. split; [discriminate|intros []].
    + intros r. split; [intros []|]. intros (j' & H & _). lia.
  - intros j (inb & rows) Hj (I1 & I2 & I3 & I4). do 2 (apply wp_bind, wp_rd; [lia|]).
    destruct (ptr_le n Ap Ai W j ltac:(lia)) as (P1 & P2 & P3).
    apply wp_for with (I := fun q (st : list bool * list nat) => let '(inb, rows) := st in length inb = n /\ NoDup rows /\
      (forall r, r < n -> (inb.[r] = true <-> In r rows)) /\
      forall r, In r rows <-> (exists j', sb <= j' < j /\ entry Ap Ai j' r) \/ (exists q', Ap.[j] <= q' < q /\ Ai.[q'] = r)); [lia| | |].
    + splits; auto. intros r. rewrite I4. split; [auto|]. intros [H|(q' & H & _)]; [auto|lia].
    + clear I1 I2 I3 I4 inb rows. intros q (inb & rows) Hq (I1 & I2 & I3 & I4). apply wp_bind, wp_rd; [lia|].
      pose proof (W5 q ltac:(lia)) as B. apply wp_bind, wp_rd; [lia|]. destruct (inb.[Ai.[q]]) eqn:Ev.
      * apply wp_ret. splits; auto. intros r. rewrite I4. split.
        -- intros [H|(q' & H & E)]; [auto|]. right. exists q'. split; auto. lia.
        -- intros [H|(q' & H & E)]; [auto|]. destruct (Nat.eq_dec q' q) as [->|]; [|right; exists q'; split; auto; lia].
           apply I4. subst r. now apply I3.
      * assert (NI : ~ In Ai.[q] rows) by (intros H; apply I3 in H; auto; congruence).
        assert (ND : NoDup (rows ++ [Ai.[q]])).
        { apply (Permutation_NoDup (Permutation_cons_append rows Ai.[q])). constructor; auto. }
        assert (LB : length rows < n).
        { assert (length (rows ++ [Ai.[q]]) <= n); [|rewrite app_length in *; simpl in *; lia]. apply nodup_bound; auto. intros x Hx.
          apply in_app_iff in Hx. destruct Hx as [Hx|[<-|[]]]; auto. apply I4 in Hx. destruct Hx as [(j' & Hj' & E)|(q' & Hq' & <-)].
          - apply (entry_lt j'); auto. lia.
          - apply W5. lia. }
        apply wp_bind, wp_wr; [lia|]. apply wp_bind.
        eapply wp_mono with (P := fun _ => True).
        { destruct cap as [k|]; [|now apply wp_ret]. specialize (Hcap k eq_refl). destruct (Nat.ltb_spec (length rows) k); [now apply wp_ret|lia]. }
        intros _ _. apply wp_ret. rewrite upd_length. splits; auto.
        -- intros r Hr. rewrite aget_upd by lia. rewrite in_app_iff. simpl. destruct (Nat.eqb_spec r Ai.[q]) as [->|]; [tauto|].
           rewrite I3 by auto. split; [auto|]. intros [H|[H|[]]]; [auto|congruence].
        -- intros r. rewrite in_app_iff, I4. simpl. split.
           ++ intros [[H|(q' & H & E)]|[<-|[]]]; [auto|right; exists q'; split; auto; lia|right; exists q; split; auto; lia].
           ++ intros [H|(q' & H & E)]; [auto|]. destruct (Nat.eq_dec q' q) as [->|]; [auto|]. left. right. exists q'. split; auto. lia.
    + clear I1 I2 I3 I4 inb rows. intros (inb & rows) (I1 & I2 & I3 & I4). splits; auto. intros r. rewrite I4. split.
      * intros [(j' & H & E)|(q' & H & E)]; [exists j'; split; auto; lia|]. exists j. split; [lia|]. exists q'. auto.
      * intros (j' & H & E). destruct (Nat.eq_dec j' j) as [->|]; [right; destruct E as (q' & E); exists q'; auto|left; exists j'; split; auto; lia].
  - intros (inb & rows) (I1 & I2 & I3 & I4). apply HQ; auto. apply sorted_lt_ext.
    + apply sorted_le_NoDup_lt; [apply isort_sorted|]. apply (Permutation_NoDup (isort_perm rows)); auto.
    + apply rows_of_sorted.
    + intros x. rewrite isort_In, I4, rows_of_In by auto. tauto.
Qed.

Lemma clear_rows_wp inb rows (Q : list bool -> Prop) : length inb = n -> (forall r, In r rows -> r < n) -> (forall r, r < n -> inb.[r] = true -> In r rows) ->
  Q (repeat false n) -> wp (clear_rows rows inb) Q.
Proof.
  intros L1 L2 L3 HQ. unfold clear_rows.
  apply wp_foreach with (I := fun pre (b : list bool) => length b = n /\ forall r, r < n -> b.[r] = true -> In r rows /\ ~ In r pre).
  - split; auto.
  - intros pre x post b E (H1 & H2). apply wp_wr; [rewrite H1; apply L2; rewrite E, in_app_iff; right; now left|]. rewrite upd_length. split; auto.
    intros r Hr. rewrite aget_upd by (rewrite H1; apply L2; rewrite E, in_app_iff; right; now left). destruct (Nat.eqb_spec r x) as [->|]; [discriminate|].
    intros T. destruct (H2 r Hr T) as (H3 & H4). split; auto. rewrite in_app_iff. simpl. intros [H|[H|[]]]; [auto|congruence].
  - intros b (H1 & H2). replace b with (repeat false n); auto. apply list_ext; [rewrite repeat_length; auto|]. intros i Hi. rewrite repeat_length in Hi.
    rewrite aget_repeat by auto. destruct (b.[i]) eqn:E; auto. destruct (H2 i Hi E) as (H3 & H4). contradiction.
Qed.

Variables (nodes : nat) (super : list nat).
Hypothesis C : block_cuts n nodes super.

Lemma cuts_le a b : a <= b -> b <= nodes -> super.[a] <= super.[b].
Proof. destruct C as (C1 & C2 & C3 & C4). apply (mono_le (aget super) nodes). intros i Hi. specialize (C4 i Hi). lia. Qed.

Lemma cuts_n s : s < nodes -> super.[s] < super.[S s] /\ super.[S s] <= n.
Proof. intros Hs. pose proof C as (C1 & C2 & C3 & C4). specialize (C4 s Hs). pose proof (cuts_le (S s) nodes ltac:(lia) ltac:(lia)). lia. Qed.

Lemma cuts_count : nodes <= n.
Proof.
  destruct C as (C1 & C2 & C3 & C4). assert (forall s, s <= nodes -> s <= super.[s]); [|specialize (H nodes ltac:(lia)); lia].
  induction s; intros Hs; [lia|]. specialize (IHs ltac:(lia)). specialize (C4 s ltac:(lia)). lia.
Qed.

Definition brows (s : nat) : list nat := rows_of super.[s] super.[S s].
Definition boff (s : nat) : nat := sum_r 0 s (fun t => (super.[S t] - super.[t]) * length (brows t)).

Lemma boff_S s : boff (S s) = boff s + (super.[S s] - super.[s]) * length (brows s).
Proof. unfold boff. now rewrite sum_r_S by lia. Qed.

Lemma boff_le a b : a <= b -> boff a <= boff b.
Proof. intros H. induction H as [|m H IH]; auto. rewrite boff_S. eapply Nat.le_trans; [exact IH|apply Nat.le_add_r]. Qed.

Lemma gather_step cap s inb (Q : list bool * list nat -> Prop) : s < nodes -> (forall k, cap = Some k -> n <= k) -> inb = repeat false n ->
  (forall inb rows, length inb = n -> (forall r, In r rows -> r < n) -> (forall r, r < n -> inb.[r] = true -> In r rows) ->
     length rows = length (brows s) -> isort rows = brows s -> Q (inb, rows)) ->
  wp (gather_rows cap Ap Ai super.[s] super.[S s] inb) Q.
Proof.
  intros Hs Hcap -> HQ. destruct (cuts_n s Hs) as (B1 & B2). apply gather_rows_wp; auto; [lia|]. intros inb rows I1 I2 I3. apply HQ; auto.
  - intros r Hr. apply (isort_In r rows) in Hr. rewrite I3 in Hr. apply rows_of_In in Hr; auto. destruct Hr as (j & Hj & E). apply (entry_lt j); auto. lia.
  - intros r Hr T. now apply I2.
  - unfold brows. rewrite <- I3. now rewrite isort_length.
Qed.

Lemma calcSize_wp (Q : nat * list nat -> Prop) : 
  (forall p, length p = n + 1 -> (forall s, s <= nodes -> p.[s] = boff s) -> Q (boff nodes, p)) -> wp (calcSize n Ap Ai nodes super) Q.
Proof.
  intros HQ. pose proof C as (C1 & C2 & C3 & C4). pose proof cuts_count as CN. unfold calcSize. apply wp_bind.
  apply wp_for with (I := fun i (st : nat * list nat * list bool) => let '(nnz, p, inb) := st in nnz = boff i /\ length p = n + 1 /\
     (forall s, s < i -> p.[s] = boff s) /\ inb = repeat false n); [lia| | |].
  - splits; auto. apply repeat_length. intros; lia.
  - intros i ((nnz & p) & inb) Hi (I1 & I2 & I3 & I4). apply wp_bind, wp_wr; [lia|]. do 2 (apply wp_bind, wp_rd; [lia|]). apply wp_bind.
    apply gather_step; auto; [lia|intros k [= <-]; lia|]. intros inb' rows R1 R2 R3 R4 R5. apply wp_bind. apply clear_rows_wp; auto. apply wp_ret.
    rewrite upd_length. splits; auto.
    + rewrite boff_S, R4, I1. lia.
    + intros s Hs. rewrite aget_upd by lia. destruct (Nat.eqb_spec s i) as [->|]; auto. apply I3. lia.
  - intros ((nnz & p) & inb) (I1 & I2 & I3 & I4). apply wp_bind, wp_wr; [lia|]. apply wp_ret. subst nnz. apply HQ; [now rewrite upd_length|].
    intros s Hs. rewrite aget_upd by lia. destruct (Nat.eqb_spec s nodes) as [->|]; auto. apply I3. lia.
Qed.

Context {V : Type} `{DV : Dflt V}.
Variable Ax : list V.
Hypothesis LX : Ap.[n] <= length Ax.
Hypothesis SC : sorted_cols n Ap Ai.
(** the last column ends with the last row *)
Hypothesis LAST : 0 < n -> Ap.[n - 1] < Ap.[n] /\ Ai.[Ap.[n] - 1] = n - 1.

Lemma format_column_wp rows j mi mx counter nnz (Q : list nat * list V * nat -> Prop) : j < n -> sorted_lt rows -> (forall r, In r rows -> r < n) ->
  (forall r, entry Ap Ai j r -> In r rows) ->
  length mi = nnz -> length mx = nnz -> counter + length rows <= nnz ->
  (forall mi' mx', length mi' = nnz -> length mx' = nnz ->
     (forall k, k < counter -> mi'.[k] = mi.[k] /\ mx'.[k] = mx.[k]) ->
     (forall k, k < length rows -> mi'.[counter + k] = rows.[k] /\ value_at Ap Ai Ax j rows.[k] mx'.[counter + k]) ->
     Q (mi', mx', counter + length rows)) ->
  wp (format_column Ap Ai Ax rows j (mi, mx, counter)) Q.
Proof.
  intros Hj SR RB RE L1 L2 LB HQ. pose proof W as (W1 & W2 & W3 & W4 & W5). destruct (ptr_le n Ap Ai W j Hj) as (P1 & P2 & P3).
  unfold format_column. apply wp_bind, wp_rd; [lia|]. apply wp_bind.
  apply wp_foreach with (I := fun pre (st : list nat * list V * nat * nat) => let '(mi', mx', c, index) := st in c = counter + length pre /\
    length mi' = nnz /\ length mx' = nnz /\ (forall k, k < counter -> mi'.[k] = mi.[k] /\ mx'.[k] = mx.[k]) /\
    (forall k, k < length pre -> mi'.[counter + k] = rows.[k] /\ value_at Ap Ai Ax j rows.[k] mx'.[counter + k]) /\
    Ap.[j] <= index <= Ap.[S j] /\ (forall q, Ap.[j] <= q < index -> In Ai.[q] pre) /\ (forall q, index <= q < Ap.[S j] -> ~ In Ai.[q] pre)).
  - cbn [length]. splits; auto; try lia; intros; lia.
  - intros pre r post (((mi' & mx') & c) & index) El (I1 & I2 & I3 & I4 & I5 & I6 & I7 & I8).
    assert (LR : length rows = length pre + S (length post)) by (rewrite El, app_length; reflexivity).
    assert (Er : rows.[length pre] = r) by (rewrite El; rewrite aget_app2 by lia; now rewrite Nat.sub_diag).
    assert (PR : forall x, In x pre -> x < r).
    { intros x Hx. destruct (In_aget _ _ Hx) as (i & Hi & <-). rewrite <- Er. replace pre.[i] with rows.[i] by (rewrite El; now rewrite aget_app1). apply SR; lia. }
    assert (PO : forall x, In x post -> r < x).
    { intros x Hx. destruct (In_aget _ _ Hx) as (i & Hi & <-). rewrite <- Er. replace post.[i] with rows.[length pre + S i].
      - apply SR; lia.
      - rewrite El. rewrite aget_app2 by lia. replace (length pre + S i - length pre) with (S i) by lia. now rewrite aget_cons_S. }
    assert (CS : forall q, Ap.[j] <= q < Ap.[S j] -> In Ai.[q] pre \/ Ai.[q] = r \/ In Ai.[q] post).
    { intros q Hq. assert (H : In Ai.[q] rows) by (apply RE; exists q; auto). rewrite El, in_app_iff in H. simpl in H. intuition. }
    assert (BR : r < n) by (apply RB; rewrite El, in_app_iff; right; now left).
    apply wp_bind, wp_wr; [lia|].
    assert (BI : index < length Ai).
    { destruct (Nat.eq_dec index Ap.[S j]) as [->|]; [|lia]. destruct (LAST ltac:(lia)) as (LA1 & LA2).
      destruct (Nat.eq_dec (S j) n) as [En|]; [|assert (Ap.[S j] <= Ap.[n - 1]) by (apply (mono_le (aget Ap) n); auto; lia); lia].
      exfalso. rewrite En in *. replace (n - 1) with j in * by lia. pose proof (PR _ (I7 (Ap.[n] - 1) ltac:(lia))). lia. }
    apply wp_bind, wp_rd; [auto|]. apply wp_bind, wp_rd; [lia|].
    assert (Fin : forall (v : V) index', value_at Ap Ai Ax j r v -> Ap.[j] <= index' <= Ap.[S j] ->
        (forall q, Ap.[j] <= q < index' -> In Ai.[q] (pre ++ [r])) -> (forall q, index' <= q < Ap.[S j] -> ~ In Ai.[q] (pre ++ [r])) ->
        S c = counter + length (pre ++ [r]) /\ length (upd mi' c r) = nnz /\ length (upd mx' c v) = nnz /\
        (forall k, k < counter -> (upd mi' c r).[k] = mi.[k] /\ (upd mx' c v).[k] = mx.[k]) /\
        (forall k, k < length (pre ++ [r]) -> (upd mi' c r).[counter + k] = rows.[k] /\ value_at Ap Ai Ax j rows.[k] (upd mx' c v).[counter + k]) /\
        Ap.[j] <= index' <= Ap.[S j] /\ (forall q, Ap.[j] <= q < index' -> In Ai.[q] (pre ++ [r])) /\ (forall q, index' <= q < Ap.[S j] -> ~ In Ai.[q] (pre ++ [r]))).
    { intros v index' F1 F2 F3 F4. rewrite !app_length, !upd_length. cbn [length]. splits; auto; try lia.
      - intros k Hk. rewrite !aget_upd_ne by lia. auto.
      - intros k Hk. rewrite !aget_upd by lia. destruct (Nat.eqb_spec (counter + k) c) as [E|E].
        + replace k with (length pre) by lia. rewrite Er. auto.
        + apply I5. lia. }
    destruct (Nat.eqb_spec r Ai.[index]) as [E|E]; cbn [andb].
    + destruct (Nat.ltb_spec index Ap.[S j]) as [Lq|Lq].
      * apply wp_bind, wp_rd; [lia|]. apply wp_bind, wp_wr; [lia|]. apply wp_ret. apply Fin; try lia.
        -- left. exists index. splits; auto. lia.
        -- intros q Hq. rewrite in_app_iff. destruct (Nat.eq_dec q index) as [->|]; [right; left; auto|left; apply I7; lia].
        -- intros q Hq. rewrite in_app_iff. simpl. intros [H|[H|[]]]; [apply (I8 q); auto; lia|].
           pose proof (SC j index q Hj ltac:(lia) ltac:(lia) ltac:(lia)). lia.
      * apply wp_bind, wp_wr; [lia|]. apply wp_ret. apply Fin; auto.
        -- right. split; auto. intros (q & Hq & Eq). specialize (I7 q ltac:(lia)). rewrite Eq in I7. specialize (PR _ I7). lia.
        -- intros q Hq. rewrite in_app_iff. left. apply I7. auto.
        -- intros q Hq. lia.
    + apply wp_bind, wp_wr; [lia|]. apply wp_ret.
      assert (NR : forall q, Ap.[j] <= q < Ap.[S j] -> Ai.[q] <> r).
      { intros q Hq Eq. destruct (le_lt_dec index q) as [G|G].
        - destruct (Nat.eq_dec q index) as [->|]; [congruence|].
          pose proof (SC j index q Hj ltac:(lia) ltac:(lia) ltac:(lia)) as Hlt.
          destruct (CS index ltac:(lia)) as [H|[H|H]]; [apply (I8 index); auto; lia|congruence|]. specialize (PO _ H). lia.
        - specialize (PR _ (I7 q ltac:(lia))). lia. }
      apply Fin; auto.
      * right. split; auto. intros (q & Hq & Eq). now apply (NR q).
      * intros q Hq. rewrite in_app_iff. left. auto.
      * intros q Hq. rewrite in_app_iff. simpl. intros [H|[H|[]]]; [apply (I8 q); auto|]. apply (NR q); auto; lia.
  - intros (((mi' & mx') & c) & index) (I1 & I2 & I3 & I4 & I5 & _). apply wp_ret. subst c. apply HQ; auto.
Qed.

Lemma createFormat_wp (Q : list nat * list V * list nat -> Prop) :
  (forall mi mx nrows, length mi = boff nodes -> length mx = boff nodes -> length nrows = nodes ->
     (forall s, s < nodes -> nrows.[s] = length (brows s) /\ block_exact Ap Ai Ax super.[s] super.[S s] (boff s) (brows s) mi mx) -> Q (mi, mx, nrows)) ->
  wp (createFormat n Ap Ai Ax (boff nodes) nodes super) Q.
Proof.
  intros HQ. pose proof C as (C1 & C2 & C3 & C4). pose proof cuts_count as CN. unfold createFormat. apply wp_bind.
  apply wp_for with (I := fun i (st : list nat * list V * nat * list nat * list bool) => let '(mi, mx, counter, nrows, inb) := st in
     length mi = boff nodes /\ length mx = boff nodes /\ counter = boff i /\ length nrows = nodes /\ inb = repeat false n /\
     forall s, s < i -> nrows.[s] = length (brows s) /\ block_exact Ap Ai Ax super.[s] super.[S s] (boff s) (brows s) mi mx); [lia| | |].
  - rewrite !repeat_length. splits; auto. intros; lia.
  - intros i ((((mi & mx) & counter) & nrows) & inb) Hi (I1 & I2 & I3 & I4 & I5 & I6). do 2 (apply wp_bind, wp_rd; [lia|]). apply wp_bind.
    destruct (cuts_n i ltac:(lia)) as (B1 & B2).
    apply gather_step; auto; [lia|discriminate|]. intros inb' rows R1 R2 R3 R4 R5. apply wp_bind, wp_wr; [lia|]. rewrite R5. apply wp_bind.
    assert (RI : forall r, In r (brows i) <-> In r rows) by (intros r; rewrite <- R5; apply isort_In).
    apply clear_rows_wp; auto.
    { intros r Hr. apply R2. now apply RI. }
    { intros r Hr T. apply RI. auto. }
    apply wp_bind. pose proof (rows_of_length super.[i] super.[S i] B2) as LB. fold (brows i) in LB.
    destruct (Nat.leb_spec (length (brows i)) n) as [_|G]; [|lia]. apply wp_ret. apply wp_bind.
    pose proof (boff_le (S i) nodes ltac:(lia)) as BO. rewrite boff_S in BO.
    apply wp_for with (I := fun j (st : list nat * list V * nat) => let '(mi', mx', c) := st in
      length mi' = boff nodes /\ length mx' = boff nodes /\ c = boff i + (j - super.[i]) * length (brows i) /\
      (forall k, k < boff i -> mi'.[k] = mi.[k] /\ mx'.[k] = mx.[k]) /\
      forall j' k, super.[i] <= j' < j -> k < length (brows i) ->
        mi'.[boff i + (j' - super.[i]) * length (brows i) + k] = (brows i).[k] /\
        value_at Ap Ai Ax j' (brows i).[k] mx'.[boff i + (j' - super.[i]) * length (brows i) + k]); [lia| | |].
    + rewrite Nat.sub_diag. simpl. splits; auto; try lia.
    + intros j ((mi' & mx') & c) Hj (J1 & J2 & J3 & J4 & J5).
      assert (LE : S (j - super.[i]) * length (brows i) <= (super.[S i] - super.[i]) * length (brows i)) by (apply Nat.mul_le_mono_r; lia).
      simpl in LE.
      apply format_column_wp with (nnz := boff nodes); auto; try lia.
      * apply rows_of_sorted.
      * intros r Hr. apply R2. now apply RI.
      * intros r Hr. unfold brows. rewrite rows_of_In by auto. exists j. split; auto.
      * intros mi2 mx2 K1 K2 K3 K4. splits; auto.
        -- replace (S j - super.[i]) with (S (j - super.[i])) by lia. simpl. lia.
        -- intros k Hk. assert (boff i <= c) by (rewrite J3; apply Nat.le_add_r). destruct (K3 k ltac:(lia)) as (-> & ->). apply J4; auto.
        -- intros j' k Hj' Hk. destruct (Nat.eq_dec j' j) as [->|].
           ++ rewrite <- J3. apply K4; auto.
           ++ assert (LE' : S (j' - super.[i]) * length (brows i) <= (j - super.[i]) * length (brows i)) by (apply Nat.mul_le_mono_r; lia). simpl in LE'.
              destruct (K3 (boff i + (j' - super.[i]) * length (brows i) + k) ltac:(lia)) as (-> & ->). apply J5; auto. lia.
    + intros ((mi' & mx') & c) (J1 & J2 & J3 & J4 & J5). apply wp_ret. rewrite upd_length. splits; auto.
      * rewrite boff_S. lia.
      * intros s Hs. rewrite aget_upd by lia. destruct (Nat.eqb_spec s i) as [->|].
        -- split; [now rewrite R4|]. unfold block_exact. splits.
           ++ apply rows_of_sorted.
           ++ intros r. apply rows_of_In; auto.
           ++ intros j k Hj Hk. apply J5; auto.
        -- destruct (I6 s ltac:(lia)) as (S1 & S2 & S3 & S4). split; auto. unfold block_exact. splits; auto.
           intros j k Hj Hk. pose proof (boff_le (S s) i ltac:(lia)) as BO'. rewrite boff_S in BO'.
           assert (LE : S (j - super.[s]) * length (brows s) <= (super.[S s] - super.[s]) * length (brows s)) by (apply Nat.mul_le_mono_r; lia). simpl in LE.
           destruct (J4 (boff s + (j - super.[s]) * length (brows s) + k) ltac:(lia)) as (-> & ->). apply S4; auto.
  - intros ((((mi & mx) & counter) & nrows) & inb) (I1 & I2 & I3 & I4 & I5 & I6). apply wp_ret. apply HQ; auto.
Qed.
End Format.
