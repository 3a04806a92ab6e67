(** Property C123: the right-hand sides made by rhs_init and rhs_init_blocked. *)
From Coq Require Import ZifyBool ZifyNat.
From Verif Require Import Base Lib Lib2 Spec SpecMat SpecSolve M_Mat L_Mat P_Mat M_SpTRSV L_SpTRSV P_SpTRSV P_Pipeline M_TestUtil.

Lemma for_ext {S} (f g : nat -> S -> res S) lo hi s : (forall i s, f i s = g i s) -> for_ lo hi f s = for_ lo hi g s.
Proof.
  intros H. unfold for_. generalize (hi - lo) as k. intros k. revert lo s. induction k as [|k IH]; intros lo s; [reflexivity|].
  cbn [for_n]. rewrite H. destruct (g lo s); cbn [bind]; auto.
Qed.

Section Rhs.
Context {V : Type} {DV : Dflt V}.
Variables (zero : V) (add : V -> V -> V).

(** the sum of the values of row [r], from left to right *)
Definition row_total (n : nat) (cols : nat -> list (nat * V)) (r : nat) : V := fold_left add (map snd (row_of n cols r)) zero.

(** the entries of column [c] when the row of position [k] is [rowf c k] *)
Definition colf (Ap : list nat) (rowf : nat -> nat -> nat) (Ax : list V) (c : nat) : list (nat * V) :=
  map (fun k => (rowf c k, Ax.[k])) (seq Ap.[c] (Ap.[S c] - Ap.[c])).

Lemma row_of_S {W} c (cols : nat -> list (nat * W)) r : row_of (S c) cols r = row_of c cols r ++ map (fun e => (c, snd e)) (filter (fun e => fst e =? r) (cols c)).
Proof. unfold row_of. rewrite seq_S, flat_map_app. simpl. now rewrite app_nil_r. Qed.

Lemma map_snd_tag {W} (c : nat) (l : list (nat * W)) : map snd (map (fun e : nat * W => (c, snd e)) l) = map snd l.
Proof. rewrite map_map. reflexivity. Qed.

Lemma zero_wp n (b : list V) (Q : list V -> Prop) : n <= length b ->
  (forall b', length b' = length b -> (forall r, r < n -> b'.[r] = zero) -> (forall r, n <= r -> b'.[r] = b.[r]) -> Q b') ->
  wp (for_ 0 n (fun j b => wr b j zero) b) Q.
Proof.
  intros H HQ. apply (wp_for (fun k (b' : list V) => length b' = length b /\ (forall r, r < k -> b'.[r] = zero) /\ forall r, k <= r -> b'.[r] = b.[r])); [lia| | |].
  - splits; auto. intros; lia.
  - intros k b' Hk (L & I1 & I2). apply wp_wr; [lia|]. rewrite upd_length. splits; auto.
    + intros r Hr. destruct (Nat.eq_dec r k) as [->|]; [now rewrite aget_upd_eq by lia|]. rewrite aget_upd_ne by auto. apply I1. lia.
    + intros r Hr. rewrite aget_upd_ne by lia. apply I2. lia.
  - intros b' (L & I1 & I2). apply HQ; auto.
Qed.

(** both loops, with the read of the row as a parameter *)
Lemma rhs_wp n Ap (rowf : nat -> nat -> nat) (row : nat -> nat -> nat -> res nat) (Ax b : list V) :
  n < length Ap -> (forall i, i < n -> Ap.[i] <= Ap.[S i]) -> Ap.[n] <= length Ax -> n <= length b ->
  (forall c k, c < n -> Ap.[c] <= k < Ap.[S c] -> row c Ap.[c] k = Ok (rowf c k) /\ rowf c k < n) ->
  wp (b <- for_ 0 n (fun j b => wr b j zero) b ;;
      for_ 0 n (fun c b => lo <- rd Ap c ;; hi <- rd Ap (S c) ;;
        for_ lo hi (fun cc b => r <- row c lo cc ;; x <- rd Ax cc ;; v <- rd b r ;; wr b r (add v x)) b) b)
     (fun b' => length b' = length b /\ (forall r, r < n -> b'.[r] = row_total n (colf Ap rowf Ax) r) /\ forall r, n <= r -> b'.[r] = b.[r]).
Proof.
  intros LA MA HX HB HR. apply wp_bind. apply zero_wp; auto. intros b0 L0 Z0 K0.
  apply (wp_for (fun c (b' : list V) => length b' = length b /\ (forall r, r < n -> b'.[r] = row_total c (colf Ap rowf Ax) r) /\ forall r, n <= r -> b'.[r] = b.[r])); [lia| | |auto].
  - splits; auto.
  - intros c b1 Hc (L1 & I1 & K1). apply wp_bind. apply wp_rd; [lia|]. apply wp_bind. apply wp_rd; [lia|].
    assert (HM : Ap.[S c] <= Ap.[n]) by (apply (mono_le (aget Ap) n); auto; lia). pose proof (MA c ltac:(lia)) as HC.
    apply (wp_for (fun k (b' : list V) => length b' = length b /\
       (forall r, r < n -> b'.[r] = fold_left add (map snd (filter (fun e => fst e =? r) (map (fun k => (rowf c k, Ax.[k])) (seq Ap.[c] (k - Ap.[c]))))) b1.[r]) /\
       forall r, n <= r -> b'.[r] = b.[r])); [lia| | |].
    + rewrite Nat.sub_diag. cbn. auto.
    + intros k b2 Hk (L2 & I2 & K2). destruct (HR c k ltac:(lia) Hk) as (E & Hr). rewrite E. cbn [bind].
      apply wp_bind. apply wp_rd; [lia|]. apply wp_bind. apply wp_rd; [lia|]. apply wp_wr; [lia|]. rewrite upd_length. splits; auto.
      * intros r Hr'. replace (S k - Ap.[c]) with (S (k - Ap.[c])) by lia. rewrite seq_S, map_app, filter_app, map_app, fold_left_app.
        replace (Ap.[c] + (k - Ap.[c])) with k by lia. cbn [map filter fst]. rewrite <- I2 by auto.
        destruct (Nat.eqb_spec (rowf c k) r) as [<-|N]; cbn [map snd fold_left].
        -- now rewrite aget_upd_eq by lia.
        -- now rewrite aget_upd_ne by auto.
      * intros r Hr'. rewrite aget_upd_ne by lia. auto.
    + intros b2 (L2 & I2 & K2). splits; auto. intros r Hr. rewrite I2 by auto. unfold row_total. rewrite row_of_S, map_app, fold_left_app, map_snd_tag.
      now rewrite I1 by auto.
Qed.

(** C123.  rhs_init stores the row sums. *)
Theorem C123_row_sums : forall n Ap Ai (Ax b : list V), wf_csc n Ap Ai -> Ap.[n] <= length Ax -> n <= length b ->
  exists b', rhs_init zero add n Ap Ai Ax b = Ok b' /\ length b' = length b /\
    (forall r, r < n -> b'.[r] = row_total n (col Ap Ai Ax) r) /\ (forall r, n <= r -> b'.[r] = b.[r]).
Proof.
  intros n Ap Ai Ax b (W1 & W2 & W3 & W4 & W5) HX HB.
  apply wp_ok. unfold rhs_init. change (col Ap Ai Ax) with (colf Ap (fun _ k => Ai.[k]) Ax).
  apply (rhs_wp n Ap (fun _ k => Ai.[k]) (fun _ _ k => rd Ai k)); auto.
  intros c k Hc Hk. assert (Ap.[S c] <= Ap.[n]) by (apply (mono_le (aget Ap) n); auto; lia). split; [apply rd_ok; lia|apply W5; lia].
Qed.

(** rhs_init_blocked too; the row of entry [k] of column [c] is read at AiP[c] + k - Ap[c]. *)
Theorem C123_row_sums_blocked : forall n Ap Ai AiP (Ax b : list V),
  n < length Ap -> (forall i, i < n -> Ap.[i] <= Ap.[S i]) -> Ap.[n] <= length Ax -> n <= length b -> n <= length AiP ->
  (forall c k, c < n -> Ap.[c] <= k < Ap.[S c] -> AiP.[c] + (k - Ap.[c]) < length Ai /\ Ai.[AiP.[c] + (k - Ap.[c])] < n) ->
  exists b', rhs_init_blocked zero add n Ap Ai AiP Ax b = Ok b' /\ length b' = length b /\
    (forall r, r < n -> b'.[r] = row_total n (colf Ap (fun c k => Ai.[AiP.[c] + (k - Ap.[c])]) Ax) r) /\ (forall r, n <= r -> b'.[r] = b.[r]).
Proof.
  intros n Ap Ai AiP Ax b LA MA HX HB HP HI. apply wp_ok. unfold rhs_init_blocked.
  eapply wp_mono; [|intros b' H; exact H].
  pose proof (rhs_wp n Ap (fun c k => Ai.[AiP.[c] + (k - Ap.[c])]) (fun c lo cc => q <- rd AiP c ;; rd Ai (q + (cc - lo))) Ax b LA MA HX HB) as G.
  assert (G' := G). clear G. lapply G'; clear G'.
  - intros G. eapply wp_mono in G; [|intros b' H; exact H]. 
    match goal with G : wp ?m _ |- wp ?m' _ => replace m' with m; [exact G|] end.
    destruct (for_ 0 n (fun j b => wr b j zero) b) as [b0|]; cbn [bind]; auto.
    apply for_ext. intros c s. destruct (rd Ap c) as [lo|]; cbn [bind]; auto. destruct (rd Ap (S c)) as [hi|]; cbn [bind]; auto.
    apply for_ext. intros cc t. destruct (rd AiP c); cbn [bind]; auto.
  - intros c k Hc Hk. destruct (HI c k Hc Hk). rewrite rd_ok by lia. cbn [bind]. rewrite rd_ok by auto. auto.
Qed.
End Rhs.
Print Assumptions C123_row_sums.
Print Assumptions C123_row_sums_blocked.

(** In exact arithmetic the solution of the system is the vector of ones. *)
Section Ones.
Context {V : Type} {DV : Dflt V}.
Variables (zero one : V) (add sub mul quo : V -> V -> V).
Hypothesis (AC : forall a b, add a b = add b a) (AA : forall a b c, add a (add b c) = add (add a b) c) (AZ : forall a, add zero a = a).
Hypothesis (SA : forall a b, sub (add a b) b = a) (M1 : forall a, mul a one = a).

Lemma fold_add_shift l a x : fold_left add l (add a x) = add (fold_left add l a) x.
Proof.
  clear - AC AA. revert a. induction l as [|y l IH]; intros a; simpl; auto. rewrite <- IH. f_equal. rewrite <- !AA. f_equal. apply AC.
Qed.

Lemma fold_sub_add l d : fold_left sub l (fold_left add l d) = d.
Proof.
  clear - AC AA SA. revert d. induction l as [|x l IH]; intros d; simpl; auto. rewrite (fold_add_shift l d x), SA. apply IH.
Qed.

Lemma sum_minus l d : fold_left sub l (fold_left add (l ++ [d]) zero) = d.
Proof.
  clear - AC AA AZ SA. rewrite fold_left_app. simpl. rewrite <- fold_add_shift, AZ. apply fold_sub_add.
Qed.

Lemma ones_solution n Rp Ri (Rx b y : list V) :
  lower_rows n Rp Ri Rx -> forward_solution (fun a l d => sub a (mul l d)) quo n Rp Ri Rx b y ->
  (forall r, r < n -> b.[r] = fold_left add (map snd (col Rp Ri Rx r)) zero) ->
  (forall r, r < n -> quo Rx.[Rp.[S r] - 1] Rx.[Rp.[S r] - 1] = one) ->
  forall i, i < n -> y.[i] = one.
Proof.
  intros ((W & WN) & LT & HX) (_ & _ & FS) HB HQ. apply (well_founded_ind lt_wf (fun i => i < n -> y.[i] = one)).
  intros i IH Hi. rewrite FS by auto. pose proof (WN i Hi) as Wi.
  transitivity (quo Rx.[Rp.[S i] - 1] Rx.[Rp.[S i] - 1]); [|auto]. f_equal.
  rewrite HB by auto. unfold col. rewrite map_map. cbn [snd].
  replace (Rp.[S i] - Rp.[i]) with (S (Rp.[S i] - 1 - Rp.[i])) by lia. rewrite seq_S, map_app. cbn [map].
  replace (Rp.[i] + (Rp.[S i] - 1 - Rp.[i])) with (Rp.[S i] - 1) by lia.
  set (l := seq Rp.[i] (Rp.[S i] - 1 - Rp.[i])).
  rewrite <- (sum_minus (map (aget Rx) l) Rx.[Rp.[S i] - 1]) at 2.
  assert (HI : forall j, In j l -> y.[Ri.[j]] = one).
  { intros j Hj. unfold l in Hj. apply in_seq in Hj. assert (Hd : row_dep n Rp Ri Ri.[j] i) by (split; auto; exists j; split; auto; lia).
    apply LT in Hd. apply IH; lia. }
  change (map (fun x => Rx.[x]) l) with (map (aget Rx) l).
  generalize (fold_left add (map (aget Rx) l ++ [Rx.[Rp.[S i] - 1]]) zero).
  clearbody l. clear - HI M1. induction l as [|j l IH]; intros a; simpl; auto. rewrite HI by (now left). rewrite M1. apply IH. intros k Hk. apply HI. now right.
Qed.
End Ones.

(** the laws of exact arithmetic that are used *)
Record exact {V} (zero one : V) (add sub mul : V -> V -> V) : Prop := mkExact {
  ex_comm : forall a b, add a b = add b a;  ex_assoc : forall a b c, add a (add b c) = add (add a b) c;
  ex_zero : forall a, add zero a = a;  ex_sub : forall a b, sub (add a b) b = a;  ex_one : forall a, mul a one = a }.

(** C123.  The right-hand side made for the columns of a lower triangular matrix, solved by the serial code on its rows:
    every unknown is one, if the arithmetic is exact and the diagonal entries can be divided by themselves. *)
Theorem C123_solution_is_ones : forall (V : Type) (DV : Dflt V) (zero one : V) add sub mul quo n Ap Ai (Ax b : list V),
  exact zero one add sub mul -> lower_matrix n Ap Ai Ax -> n <= length b ->
  (forall c k, c < n -> Ap.[c] <= k < Ap.[S c] -> Ai.[k] = c -> quo Ax.[k] Ax.[k] = one) ->
  exists b' Rp Ri Rx y, rhs_init zero add n Ap Ai Ax b = Ok b' /\ csc_to_csr_arr n n Ap Ai Ax = Ok (Rp, Ri, Rx) /\
    sptrsv_csr (fun a l d => sub a (mul l d)) quo Rp Ri Rx n b' = Ok y /\ forall i, i < n -> y.[i] = one.
Proof.
  intros V DV zero one add sub mul quo n Ap Ai Ax b EX LM HB HQ. pose proof LM as (W & OD & LT & HX & Hn).
  destruct (C123_row_sums zero add n Ap Ai Ax b W HX HB) as (b' & Eb & Lb & Hb & _).
  destruct (csr_of_lower V DV n Ap Ai Ax LM) as (Rp & Ri & Rx & E & LR & HD).
  destruct (C33_csc_to_csr_exact V DV n n Ap Ai Ax W HX) as (Rp' & Ri' & Rx' & E' & _ & _ & _ & _ & _ & HC & _ & HI).
  rewrite E in E'. injection E' as <- <- <-. pose proof LR as (WR & RL & HRX).
  assert (G := sptrsv_csr_wp (fun a l d => sub a (mul l d)) quo n Rp Ri Rx WR HRX b' (forward_solution (fun a l d => sub a (mul l d)) quo n Rp Ri Rx b') RL ltac:(lia) (fun y Hy => Hy)).
  apply wp_ok in G. destruct G as (y & Ey & FS).
  exists b', Rp, Ri, Rx, y. splits; auto. destruct EX as [E1 E2 E3 E4 E5].
  apply (ones_solution zero one add sub mul quo E1 E2 E3 E4 E5 n Rp Ri Rx b' y LR FS).
  - intros r Hr. rewrite Hb by auto. unfold row_total. now rewrite HC.
  - intros r Hr. destruct (OD r Hr) as (k & (Hk & Ek) & Uk).
    assert (I : In (r, Ax.[k]) (col Rp Ri Rx r)).
    { apply HI; auto. split; auto. unfold col. apply in_map_iff. exists k. split; [now rewrite Ek|]. apply in_seq. lia. }
    unfold col in I. apply in_map_iff in I. destruct I as (j & Ej & Hj). apply in_seq in Hj. injection Ej as Ej1 Ej2.
    assert (j = Rp.[S r] - 1).
    { destruct (Nat.eq_dec j (Rp.[S r] - 1)); auto. exfalso. assert (D : row_dep n Rp Ri r r) by (split; auto; exists j; split; auto; lia).
      apply RL in D. lia. }
    subst j. rewrite Ej2. apply (HQ r k); auto.
Qed.
Print Assumptions C123_solution_is_ones.

(** With roundings, or any other law missing, it need not be: here addition saturates at 4 and the second unknown is 0. *)
Theorem C123_inexact_refuted : exists (n : nat) Ap Ai (Ax : list nat) b' Rp Ri Rx y,
  rhs_init 0 (fun a b => Nat.min 4 (a + b)) n Ap Ai Ax [9;9] = Ok b' /\ csc_to_csr_arr n n Ap Ai Ax = Ok (Rp, Ri, Rx) /\
  sptrsv_csr (fun a l d => a - l * d) Nat.div Rp Ri Rx n b' = Ok y /\ y = [1;0].
Proof. exists 2, [0;2;3], [0;1;1], [1;4;4]. vm_compute. do 5 eexists. splits; reflexivity. Qed.
Print Assumptions C123_inexact_refuted.

Example C123_nonvacuous :
  exact 0%Z 1%Z Z.add Z.sub Z.mul /\
  lower_matrix 3 [0;3;5;6] [0;1;2;1;2;2] [2;3;-1;4;5;7]%Z /\
  (forall c k, c < 3 -> ([0;3;5;6]).[c] <= k < ([0;3;5;6]).[S c] -> ([0;1;2;1;2;2]).[k] = c -> (([2;3;-1;4;5;7]%Z).[k] / ([2;3;-1;4;5;7]%Z).[k])%Z = 1%Z) /\
  rhs_init 0%Z Z.add 3 [0;3;5;6] [0;1;2;1;2;2] [2;3;-1;4;5;7]%Z [9;9;9;9]%Z = Ok [2;7;11;9]%Z /\
  rhs_init_blocked 0%Z Z.add 3 [0;3;5;6] [0;1;2;2] [0;1;3] [2;3;-1;4;5;7]%Z [9;9;9;9]%Z = Ok [2;7;11;9]%Z.
Proof.
  split; [constructor; intros; lia|]. split.
  - unfold lower_matrix. split; [|split; [|split; [|cbn; lia]]].
    + unfold wf_csc. cbn. splits; try lia.
      * intros i Hi. destruct i as [|[|[|i]]]; cbn; lia.
      * intros k Hk. do 6 (destruct k as [|k]; [cbn; lia|]). lia.
    + intros u Hu. destruct u as [|[|[|u]]]; try lia; [exists 0|exists 3|exists 5]; cbn; (split; [lia|]); intros k' Hk'; do 6 (destruct k' as [|k']; [cbn; lia|]); lia.
    + intros u v (Hu & (k & Hk & <-) & Hn). destruct u as [|[|[|u]]]; try lia; cbn in Hk; do 6 (destruct k as [|k]; [cbn in *; lia|]); lia.
  - split; [|vm_compute; auto]. intros c k Hc Hk E. destruct c as [|[|[|c]]]; try lia; cbn in Hk; do 6 (destruct k as [|k]; [cbn in *; lia || reflexivity|]); lia.
Qed.
