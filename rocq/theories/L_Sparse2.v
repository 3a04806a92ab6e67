(** Proofs about the graph without cliques and the removal of transitive edges. *)
From Coq Require Import ZifyBool ZifyNat.
From Verif Require Import Base Lib Lib2 Lib3 Spec M_Sparse L_Sparse.

(** * Graphs given by a list per column *)

Definition columns (n : nat) (f : nat -> list nat) (p s : list nat) : Prop :=
  length p = S n /\ (forall u, u <= n -> p.[u] = length (flat_map f (seq 0 u))) /\ s = flat_map f (seq 0 n).

Lemma flat_map_S {A} (f : nat -> list A) u : flat_map f (seq 0 (S u)) = flat_map f (seq 0 u) ++ f u.
Proof. rewrite seq_S, flat_map_app. simpl. now rewrite app_nil_r. Qed.

Section Columns.
Variables (n : nat) (f : nat -> list nat) (p s : list nat).
Hypothesis C : columns n f p s.

Lemma columns_0 : p.[0] = 0.
Proof. destruct C as (_ & H & _). rewrite H by lia. reflexivity. Qed.

Lemma columns_len u : u < n -> p.[S u] = p.[u] + length (f u).
Proof. intros Hu. destruct C as (_ & H & _). rewrite !H by lia. now rewrite flat_map_S, app_length. Qed.

Lemma columns_n : p.[n] = length s.
Proof. destruct C as (_ & H & ->). apply H. lia. Qed.

Lemma columns_le u v : u <= v -> v <= n -> p.[u] <= p.[v].
Proof. apply (mono_le (aget p) n). intros i Hi. rewrite columns_len by auto. lia. Qed.

Lemma columns_at u r : u < n -> r < length (f u) -> s.[p.[u] + r] = (f u).[r].
Proof.
  intros Hu Hr. destruct C as (_ & H & ->). rewrite H by lia.
  replace n with (S u + (n - S u)) by lia. rewrite seq_app, flat_map_app, flat_map_S.
  rewrite <- app_assoc. rewrite aget_app2 by lia. rewrite aget_app1 by lia. f_equal. lia.
Qed.

Lemma columns_pos u q : u < n -> p.[u] <= q < p.[S u] -> s.[q] = (f u).[q - p.[u]] /\ q - p.[u] < length (f u).
Proof.
  intros Hu Hq. rewrite columns_len in Hq by auto. split; [|lia]. rewrite <- columns_at by (auto; lia). f_equal. lia.
Qed.

Lemma columns_entry u x : u < n -> (entry p s u x <-> In x (f u)).
Proof.
  intros Hu. split.
  - intros (q & Hq & <-). destruct (columns_pos u q Hu Hq) as (-> & H). now apply aget_In.
  - intros Hx. destruct (In_aget _ _ Hx) as (r & Hr & <-). exists (p.[u] + r). rewrite columns_len by auto. split; [lia|]. now apply columns_at.
Qed.

Lemma columns_edge u x : edge n p s u x <-> u < n /\ In x (f u) /\ u <> x.
Proof. unfold edge. split; intros (H1 & H2 & H3); splits; auto; now apply columns_entry. Qed.

Lemma columns_wf : (forall u x, u < n -> In x (f u) -> x < n) -> wf_csc n p s.
Proof.
  intros HB. unfold wf_csc. pose proof C as (C1 & C2 & C3). splits; auto.
  - lia.
  - apply columns_0.
  - intros i Hi. rewrite columns_len by auto. lia.
  - rewrite columns_n. auto.
  - intros k Hk. rewrite columns_n in Hk. subst s. apply aget_In in Hk. apply in_flat_map in Hk. destruct Hk as (u & Hu & Hx).
    apply in_seq in Hu. apply (HB u); auto. lia.
Qed.

Lemma columns_diag : (forall u, u < n -> exists t, f u = u :: t /\ ~ In u t) -> diag_first n p s.
Proof.
  intros HD u Hu. destruct (HD u Hu) as (t & Et & Hn). rewrite columns_len, Et by auto. simpl. splits; [lia| |].
  - replace p.[u] with (p.[u] + 0) by lia. rewrite columns_at by (auto; rewrite Et; simpl; lia). now rewrite Et.
  - intros k Hk E. destruct (columns_pos u k Hu) as (Ek & Hl); [rewrite columns_len, Et by auto; simpl; lia|]. rewrite Et in Ek, Hl.
    replace (k - p.[u]) with (S (k - p.[u] - 1)) in Ek, Hl by lia. rewrite aget_cons_S in Ek. simpl in Hl.
    apply Hn. rewrite <- E, Ek. apply aget_In. lia.
Qed.

Lemma columns_sorted : (forall u, u < n -> sorted_lt (f u)) -> sorted_cols n p s.
Proof.
  intros HS u k k' Hu H1 H2 H3. destruct (columns_pos u k Hu ltac:(lia)) as (-> & L1). destruct (columns_pos u k' Hu ltac:(lia)) as (-> & L2).
  apply (HS u Hu); lia.
Qed.
End Columns.

(** a column as a list *)
Definition col_of (Lp Li : list nat) (u : nat) : list nat := slice Li Lp.[u] Lp.[S u].

Section ColOf.
Variables (n : nat) (Lp Li : list nat).
Hypothesis W : wf_csc n Lp Li.

Lemma col_of_length u : u < n -> length (col_of Lp Li u) = Lp.[S u] - Lp.[u].
Proof. intros Hu. destruct (Lp_le n Lp Li W u Hu) as (H1 & H2 & H3). apply slice_length; lia. Qed.

Lemma col_of_at u r : u < n -> r < Lp.[S u] - Lp.[u] -> (col_of Lp Li u).[r] = Li.[Lp.[u] + r].
Proof. intros Hu Hr. apply aget_slice. auto. Qed.

Lemma col_of_In u x : u < n -> (In x (col_of Lp Li u) <-> entry Lp Li u x).
Proof.
  intros Hu. destruct (Lp_le n Lp Li W u Hu) as (H1 & H2 & H3). unfold col_of. rewrite In_slice by lia. unfold entry. split.
  - intros (k & Hk & E). exists k. auto.
  - intros (k & Hk & E). exists k. auto.
Qed.

Lemma col_of_diag u : diag_first n Lp Li -> u < n -> exists t, col_of Lp Li u = u :: t /\ ~ In u t.
Proof.
  intros HD Hu. destruct (HD u Hu) as (D1 & D2 & D3). destruct (Lp_le n Lp Li W u Hu) as (H1 & H2 & H3).
  unfold col_of. rewrite slice_cons, D2 by lia. exists (slice Li (S Lp.[u]) Lp.[S u]). split; auto.
  rewrite In_slice by lia. intros (k & Hk & E). apply (D3 k); auto.
Qed.

Lemma col_of_sorted u : sorted_cols n Lp Li -> u < n -> sorted_lt (col_of Lp Li u).
Proof.
  intros HS Hu i j Hi Hj. rewrite col_of_length in Hj by auto. rewrite !col_of_at by (auto; lia). apply (HS u); auto; lia.
Qed.

Lemma columns_col_of : length Lp = S n -> length Li = Lp.[n] -> columns n (col_of Lp Li) Lp Li.
Proof.
  intros HL HLi. pose proof W as (W1 & W2 & W3 & W4 & W5).
  assert (G : forall u, u <= n -> flat_map (col_of Lp Li) (seq 0 u) = slice Li 0 Lp.[u]).
  { induction u as [|u IH]; intros Hu.
    - simpl. rewrite W2. now rewrite slice_nil.
    - rewrite flat_map_S, IH by lia. unfold col_of. symmetry. apply slice_app; [lia|]. apply W3. lia. }
  unfold columns. splits; auto.
  - intros u Hu. rewrite G by auto. assert (Lp.[u] <= Lp.[n]) by (apply (mono_le (aget Lp) n); auto). rewrite slice_length by lia. lia.
  - rewrite G by auto. rewrite <- HLi. now rewrite slice_full.
Qed.
End ColOf.

(** * The cut points *)

Definition run_cuts (labels c : list nat) : Prop :=
  1 < length c /\ c.[0] = 0 /\ c.[length c - 1] = length labels /\
  forall i, S i < length c -> c.[i] < c.[S i] /\ forall j, c.[i] <= j < c.[S i] -> labels.[j] = labels.[c.[i]].

Lemma clique_cuts_ok labels : 0 < length labels -> labels.[0] = 0 -> run_cuts labels (clique_cuts labels).
Proof.
  intros HN H0. unfold clique_cuts.
  set (f := fun (st : list nat * nat * nat) i => let '(cuts, cnt, prev) := st in (if i =? prev then cuts else cuts ++ [cnt], S cnt, i)).
  assert (G : forall l, 0 < length l -> l.[0] = 0 -> exists c, fold_left f l ([0], 0, 0) = (c, length l, l.[length l - 1]) /\
    0 < length c /\ c.[0] = 0 /\ c.[length c - 1] < length l /\ 
    (forall j, c.[length c - 1] <= j < length l -> l.[j] = l.[length l - 1]) /\
    forall i, S i < length c -> c.[i] < c.[S i] /\ forall j, c.[i] <= j < c.[S i] -> l.[j] = l.[c.[i]]).
  { intros l. induction l as [|x l IH] using rev_ind; [simpl; lia|]. intros _ Hz. rewrite fold_left_app. simpl.
    rewrite app_length. simpl. replace (length l + 1 - 1) with (length l) by lia. rewrite aget_app_last.
    destruct (Nat.eq_dec (length l) 0) as [E|E].
    - destruct l; [|discriminate]. simpl in Hz |- *. unfold aget in Hz. simpl in Hz. subst x. simpl. exists [0]. splits; auto.
      + simpl. intros j Hj. assert (j = 0) by (unfold aget in Hj; simpl in Hj; lia). subst. reflexivity.
      + simpl. intros i Hi. lia.
    - rewrite aget_app1 in Hz by lia. destruct (IH ltac:(lia) Hz) as (c & -> & C1 & C2 & C3 & C4 & C5). clear IH.
      assert (HC : forall i, i < length c -> c.[i] < length l).
      { intros i Hi. apply Nat.le_lt_trans with c.[length c - 1]; auto. apply (mono_le (aget c) (length c - 1)); try lia.
        intros k Hk. destruct (C5 k ltac:(lia)). lia. }
      simpl. rewrite Nat.add_1_r. destruct (Nat.eqb_spec x l.[length l - 1]) as [Ex|Ex].
      + exists c. splits; auto; try lia.
        * intros j Hj. destruct (Nat.eq_dec j (length l)) as [->|]; [apply aget_app_last|]. rewrite aget_app1 by lia. rewrite Ex. apply C4. lia.
        * intros i Hi. destruct (C5 i Hi) as (D1 & D2). split; auto. intros j Hj. pose proof (HC (S i) Hi).
          rewrite !aget_app1 by lia. auto.
      + exists (c ++ [length l]). rewrite app_length. simpl. replace (length c + 1 - 1) with (length c) by lia. rewrite aget_app_last.
        splits; auto; try lia.
        * rewrite aget_app1 by lia. auto.
        * intros j Hj. assert (j = length l) by lia. subst. apply aget_app_last.
        * intros i Hi. rewrite (aget_app1 c _ i) by lia. destruct (Nat.eq_dec (S i) (length c)) as [Ei|Ei].
          -- rewrite Ei, aget_app_last. replace i with (length c - 1) by lia. split; [apply HC; lia|]. intros j Hj.
             rewrite !aget_app1 by (auto; lia). rewrite C4 by lia. symmetry. apply C4. lia.
          -- rewrite aget_app1 by lia. pose proof (HC (S i) ltac:(lia)). destruct (C5 i ltac:(lia)) as (D1 & D2). split; auto. intros j Hj.
             rewrite !aget_app1 by lia. auto. }
  destruct (G labels HN H0) as (c & -> & C1 & C2 & C3 & C4 & C5). unfold run_cuts. rewrite app_length. simpl.
  replace (length c + 1 - 1) with (length c) by lia. splits; auto; try lia.
  - rewrite aget_app1 by lia. auto.
  - apply aget_app_last.
  - intros i Hi. rewrite (aget_app1 c _ i) by lia. destruct (Nat.eq_dec (S i) (length c)) as [Ei|Ei].
    + rewrite Ei, aget_app_last. replace i with (length c - 1) by lia. split; auto. intros j Hj. rewrite C4 by lia. symmetry. apply C4. lia.
    + rewrite aget_app1 by lia. apply C5. lia.
Qed.
