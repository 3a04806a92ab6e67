(** Proofs about scatter and add. *)
From Coq Require Import ZifyBool ZifyNat.
From Verif Require Import Base Lib Lib2 Lib3 Spec SpecMat SpecSym M_Mat M_Sched M_Sym L_Sched L_Mat L_Mat2 L_Mat3 L_Sym.

Section Add.
Context {V : Type} {DV : Dflt V}.
Variables (mul add : V -> V -> V).

Definition scale (beta : V) (e : nat * V) : nat * V := (fst e, mul beta (snd e)).
(** the summands of column [c] *)
Definition terms (A B : csc V) (alpha beta : V) (c : nat) : list (nat * V) :=
  map (scale alpha) (col (cp A) (ci A) (cx A) c) ++ map (scale beta) (col (cp B) (ci B) (cx B) c).

Lemma vals_at_app i (l l' : list (nat * V)) : vals_at i (l ++ l') = vals_at i l ++ vals_at i l'.
Proof. unfold vals_at. now rewrite filter_app, map_app. Qed.

Lemma vals_at_nil i (l : list (nat * V)) : ~ In i (map fst l) -> vals_at i l = [].
Proof.
  induction l as [|e l IH]; intros H; [reflexivity|]. unfold vals_at. cbn [filter]. cbn [map In] in H.
  destruct (Nat.eqb_spec (fst e) i); [tauto|]. apply IH. tauto.
Qed.

Lemma vals_at_some i (l : list (nat * V)) : In i (map fst l) -> vals_at i l <> [].
Proof.
  intros H. apply in_map_iff in H. destruct H as (e & E & H). intros E2.
  assert (In (snd e) (vals_at i l)). { apply in_map. apply filter_In. split; auto. lia. } rewrite E2 in H0. easy.
Qed.

Lemma fsum_snoc l v d : l <> [] -> fsum add (l ++ [v]) d = add (fsum add l d) v.
Proof. destruct l as [|a l]; [easy|]. intros _. simpl. now rewrite fold_left_app. Qed.

Section Scatter.
Variables (novals : bool) (m L mark c0 : nat) (Ci0 : list nat).
Hypothesis MK : 0 < mark.

Definition sc_inv (l : list (nat * V)) (st : list nat * list V * list nat * nat) : Prop :=
  let '(w, x, Ci, nz) := st in
  length w = m /\ length Ci = L /\ (novals = false -> length x = m) /\ c0 <= nz /\ nz <= c0 + length l /\ nz <= L /\
  NoDup (slice Ci c0 nz) /\ (forall i, In i (slice Ci c0 nz) <-> In i (map fst l)) /\
  (forall k, k < c0 -> Ci.[k] = Ci0.[k]) /\
  (forall i, i < m -> (In i (map fst l) -> w.[i] = mark) /\ (~ In i (map fst l) -> w.[i] < mark)) /\
  (novals = false -> forall i, i < m -> In i (map fst l) -> x.[i] = fsum add (vals_at i l) dflt).


Lemma sc_step' A p beta l st : sc_inv l st -> p < length (ci A) -> (ci A).[p] < m -> c0 + length l < L -> (novals = false -> p < length (cx A)) ->
  wp ((fun p '(w, x, Ci, nz) =>
    i <- rd (ci A) p ;; mk <- rd w i ;;
    if mk <? mark then
      w <- wr w i mark ;; Ci <- wr Ci nz i ;;
      x <- (if novals then Ok x else v <- rd (cx A) p ;; wr x i (mul beta v)) ;;
      Ok (w, x, Ci, nz + 1)
    else
      x <- (if novals then Ok x else v <- rd (cx A) p ;; y <- rd x i ;; wr x i (add y (mul beta v))) ;;
      Ok (w, x, Ci, nz)) p st) (sc_inv (l ++ [scale beta ((ci A).[p], (cx A).[p])])).
Proof.
  destruct st as [[[w x] Ci] nz]. intros (I1 & I2 & I3 & I4 & I5 & I6 & I7 & I8 & I9 & I10 & I11) Hp Hm HL HX.
  set (i := (ci A).[p]) in *. set (v := (cx A).[p]) in *.
  wp1. apply wp_rd; [auto|]. fold i. wp1. apply wp_rd; [lia|]. destruct (I10 i Hm) as [M1 M2].
  assert (HM : map fst (l ++ [scale beta (i, v)]) = map fst l ++ [i]) by (rewrite map_app; reflexivity).
  assert (HV : forall k, vals_at k (l ++ [scale beta (i, v)]) = vals_at k l ++ if i =? k then [mul beta v] else []).
  { intros k. rewrite vals_at_app. f_equal. unfold vals_at. cbn [filter scale fst]. destruct (i =? k); reflexivity. }
  destruct (in_dec Nat.eq_dec i (map fst l)) as [Hin|Hin].
  - replace (w.[i] <? mark) with false by (rewrite M1 by auto; lia).
    assert (HI : forall k, In k (map fst l ++ [i]) <-> In k (map fst l)).
    { intros k. rewrite in_app_iff. simpl. split; [intros [H|[<-|[]]]; auto|auto]. }
    destruct novals eqn:EN.
    + cbn [bind]. cbn [wp]. unfold sc_inv. rewrite HM, app_length. splits; auto; try lia; try congruence.
      * intros k. rewrite HI. auto.
      * intros k Hk. rewrite HI. auto.
    + wp1. wp1. apply wp_rd; [auto|]. wp1. apply wp_rd; [rewrite I3; auto|]. apply wp_wr; [rewrite I3; auto|]. cbn [wp].
      unfold sc_inv. rewrite HM, app_length, upd_length. splits; auto; try lia.
      * intros k. rewrite HI. auto.
      * intros k Hk. rewrite HI. auto.
      * intros _ k Hk HH. apply HI in HH. rewrite HV. destruct (Nat.eqb_spec i k) as [<-|Hne].
        -- rewrite aget_upd_eq by (rewrite I3; auto). rewrite fsum_snoc by now apply vals_at_some. now rewrite I11.
        -- rewrite aget_upd_ne by auto. rewrite app_nil_r. auto.
  - replace (w.[i] <? mark) with true by (specialize (M2 Hin); lia).
    wp1. apply wp_wr; [lia|]. wp1. apply wp_wr; [lia|].
    assert (HS : slice (upd Ci nz i) c0 (nz + 1) = slice Ci c0 nz ++ [i]).
    { rewrite (slice_app _ c0 nz (nz + 1)) by lia. rewrite slice_upd_out by lia. f_equal.
      rewrite slice_cons by (rewrite ?upd_length; lia). rewrite aget_upd_eq by lia. now rewrite slice_nil by lia. }
    assert (K1 : NoDup (slice (upd Ci nz i) c0 (nz + 1))).
    { rewrite HS. apply (Permutation_NoDup (Permutation_cons_append _ i)). constructor; auto. now rewrite I8. }
    assert (K2 : forall k, In k (slice (upd Ci nz i) c0 (nz + 1)) <-> In k (map fst l ++ [i])).
    { intros k. rewrite HS, !in_app_iff, I8. tauto. }
    assert (K3 : forall k, k < c0 -> (upd Ci nz i).[k] = Ci0.[k]) by (intros k Hk; rewrite aget_upd_ne by lia; auto).
    assert (K4 : forall k, k < m -> (In k (map fst l ++ [i]) -> (upd w i mark).[k] = mark) /\ (~ In k (map fst l ++ [i]) -> (upd w i mark).[k] < mark)).
    { intros k Hk. rewrite in_app_iff. destruct (Nat.eq_dec i k) as [<-|Hne].
      - rewrite aget_upd_eq by lia. split; auto. intros H. destruct H. right. now left.
      - rewrite aget_upd_ne by auto. destruct (I10 k Hk) as [J1 J2]. split; [intros [H|[H|[]]]; [auto|lia]|auto]. }
    destruct novals eqn:EN.
    + cbn [bind]. cbn [wp]. unfold sc_inv. rewrite HM, app_length, !upd_length. cbn [length]. splits; auto; try lia; try congruence.
    + wp1. wp1. apply wp_rd; [auto|]. apply wp_wr; [rewrite I3; auto|]. cbn [wp].
      unfold sc_inv. rewrite HM, app_length, !upd_length. cbn [length]. splits; auto; try lia.
      intros _ k Hk HH. rewrite HV. destruct (Nat.eqb_spec i k) as [<-|Hne].
      * rewrite aget_upd_eq by (rewrite I3; auto). rewrite vals_at_nil by auto. reflexivity.
      * rewrite aget_upd_ne by auto. rewrite app_nil_r. apply I11; auto. rewrite in_app_iff in HH. destruct HH as [H|[H|[]]]; [auto|lia].
Qed.

Lemma scatter_wp (A : csc V) j beta l st (Q : list nat * list V * list nat * nat -> Prop) :
  wf_mat m (cn A) (cp A) (ci A) -> j < cn A -> (novals = false -> (cp A).[cn A] <= length (cx A)) -> sc_inv l st ->
  c0 + length l + ((cp A).[S j] - (cp A).[j]) <= L ->
  (forall st', sc_inv (l ++ map (scale beta) (col (cp A) (ci A) (cx A) j)) st' -> Q st') ->
  wp (scatter mul add novals A j beta mark st) Q.
Proof.
  intros W Hj HX HI HL HQ. pose proof W as (W1 & W2 & W3 & W4 & W5). unfold scatter.
  assert (HN : (cp A).[S j] <= (cp A).[cn A]) by (apply (mono_le (aget (cp A)) (cn A)); auto; lia).
  wp1. apply wp_rd; [lia|]. wp1. apply wp_rd; [lia|]. specialize (W3 j Hj).
  apply wp_for with (I := fun p => sc_inv (l ++ map (scale beta) (map (fun k => ((ci A).[k], (cx A).[k])) (seq (cp A).[j] (p - (cp A).[j]))))).
  - auto.
  - rewrite Nat.sub_diag. simpl. now rewrite app_nil_r.
  - intros p s Hp HI2. replace (S p - (cp A).[j]) with (S (p - (cp A).[j])) by lia.
    rewrite seq_S, !map_app, app_assoc. cbn [map]. replace ((cp A).[j] + (p - (cp A).[j])) with p by lia.
    eapply wp_mono; [apply sc_step'; eauto; try lia|intros s' Hs; exact Hs].
    + apply W5. lia.
    + rewrite app_length, !map_length, seq_length. lia.
  - intros s HI2. apply HQ. exact HI2.
Qed.
End Scatter.

(** * add *)
Section Main.
Variables (A B : csc V) (alpha beta : V) (sort : bool).
Notation m := (cm A).
Notation n := (cn A).
Notation novals := (cpat A || cpat B).
Hypothesis MA : mat_ok A.
Hypothesis MB : mat_ok B.
Hypothesis SM : cm B = cm A.
Hypothesis SN : cn B = cn A.
Hypothesis NP : 0 < cn A.
Notation L := ((cp A).[n] + (cp B).[n]).
Notation tm := (terms A B alpha beta).

(** column [c] of the sum is in the cells [a .. b) *)
Definition good_col (Ci : list nat) (Cx : list V) (c a b : nat) : Prop :=
  a <= b /\ b <= L /\ NoDup (slice Ci a b) /\ (forall i, In i (slice Ci a b) <-> In i (map fst (tm c))) /\
  (sort = true -> sorted_le (slice Ci a b)) /\
  (novals = false -> forall k, a <= k < b -> Cx.[k] = fsum add (vals_at Ci.[k] (tm c)) dflt).

Lemma good_col_ext Ci Cx Ci' Cx' c a b : good_col Ci Cx c a b -> length Ci = L -> length Ci' = L ->
  (forall k, k < b -> Ci'.[k] = Ci.[k]) -> (forall k, k < b -> Cx'.[k] = Cx.[k]) -> good_col Ci' Cx' c a b.
Proof.
  intros (G1 & G2 & G3 & G4 & G5 & G6) L1 L2 E1 E2. assert (ES : slice Ci' a b = slice Ci a b) by (apply slice_ext; auto; try lia; intros i Hi; apply E1; lia).
  unfold good_col. rewrite ES. splits; auto. intros HN k Hk. rewrite E1, E2 by lia. auto.
Qed.

Definition add_inv (j : nat) (st : list nat * list nat * list V * list nat * list V * nat) : Prop :=
  let '(Cp, w, x, Ci, Cx, nz) := st in
  length Cp = S n /\ length w = m /\ length Ci = L /\ (novals = false -> length x = m /\ length Cx = L) /\ (novals = true -> Cx = []) /\
  (forall i, i < m -> w.[i] <= j) /\ nz <= (cp A).[j] + (cp B).[j] /\
  exists cb : nat -> nat, cb 0 = 0 /\ cb j = nz /\ (forall k, k < j -> Cp.[k] = cb k) /\ (forall k, k < j -> good_col Ci Cx k (cb k) (cb (S k))).

Lemma terms_length c : length (tm c) = ((cp A).[S c] - (cp A).[c]) + ((cp B).[S c] - (cp B).[c]).
Proof. unfold terms. rewrite app_length, !map_length, !col_length. auto. Qed.

Lemma terms_lt c i : c < n -> In i (map fst (tm c)) -> i < m.
Proof.
  intros Hc. destruct MA as (WA & _), MB as (WB & _). unfold terms. rewrite map_app, in_app_iff, !map_map. cbn [scale fst].
  intros [H|H]; apply in_map_iff in H; destruct H as (e & <- & He).
  - apply (col_In_bound _ _ _ _ _ _ _ WA Hc He).
  - rewrite <- SM. rewrite <- SN in Hc. apply (col_In_bound _ _ _ _ _ _ _ WB Hc He).
Qed.

Lemma add_body_wp j st : j < n -> add_inv j st ->
  wp ((fun j '(Cp, w, x, Ci, Cx, nz) =>
        Cp <- wr Cp j nz ;;
        st <- scatter mul add novals A j alpha (S j) (w, x, Ci, nz) ;;
        '(w, x, Ci, nz) <- scatter mul add novals B j beta (S j) st ;;
        a <- rd Cp j ;;
        Ci <- (if sort then sort_range Ci a nz else Ok Ci) ;;
        Cx <- (if novals then Ok Cx else for_ a nz (fun p Cx => i <- rd Ci p ;; v <- rd x i ;; wr Cx p v) Cx) ;;
        Ok (Cp, w, x, Ci, Cx, nz)) j st) (add_inv (S j)).
Proof.
  destruct st as [[[[[Cp w] x] Ci] Cx] nz]. intros Hj (I1 & I2 & I3 & I4 & I5 & I6 & I7 & cb & B0 & B1 & B2 & B3).
  destruct MA as (WA & NA & XA), MB as (WB & NB & XB). rewrite SN in *. rewrite SM in *.
  pose proof WA as (A1 & A2 & A3 & A4 & A5). pose proof WB as (C1 & C2 & C3 & C4 & C5).
  assert (HA : (cp A).[S j] <= (cp A).[n]) by (apply (mono_le (aget (cp A)) n); auto; lia).
  assert (HB : (cp B).[S j] <= (cp B).[n]) by (apply (mono_le (aget (cp B)) n); auto; lia).
  pose proof (A3 j Hj) as A3j. pose proof (C3 j Hj) as C3j.
  wp1. apply wp_wr; [lia|]. apply wp_bind.
  apply (scatter_wp novals m L (S j) nz Ci ltac:(lia) A j alpha []); auto.
  { intros E. apply XA. lia. }
  { unfold sc_inv. rewrite slice_nil by lia. splits; auto; try lia.
    - constructor.
    - easy.
    - intros i Hi. split; [easy|]. intros _. specialize (I6 i Hi). lia.
    - easy. }
  { cbn [length]. lia. }
  intros st1 S1. cbn [app] in S1. apply wp_bind.
  apply (scatter_wp novals m L (S j) nz Ci ltac:(lia) B j beta (map (scale alpha) (col (cp A) (ci A) (cx A) j))); rewrite ?SN; auto.
  { intros E. apply XB. lia. }
  { rewrite map_length, col_length. lia. }
  intros [[[w2 x2] Ci2] nz2] S2. fold (tm j) in S2. destruct S2 as (J1 & J2 & J3 & J4 & J5 & J6 & J7 & J8 & J9 & J10 & J11).
  wp1. apply wp_rd; [rewrite upd_length; lia|]. rewrite aget_upd_eq by lia.
  (* sort *)
  apply wp_bind. apply wp_mono with (P := fun Ci3 => length Ci3 = L /\ (forall k, k < nz -> Ci3.[k] = Ci.[k]) /\ NoDup (slice Ci3 nz nz2) /\
     (forall i, In i (slice Ci3 nz nz2) <-> In i (map fst (tm j))) /\ (sort = true -> sorted_le (slice Ci3 nz nz2))).
  { destruct sort; [|cbn [wp]; splits; auto; discriminate].
    apply sort_range_wp; [lia|lia|]. intros l' G1 G2 G3 G4. rewrite G3. splits; auto.
    - lia.
    - intros k Hk. rewrite G2 by lia. auto.
    - apply (Permutation_NoDup (isort_perm _)). auto.
    - intros i. rewrite isort_In. auto.
    - intros _. apply isort_sorted. }
  intros Ci3 (G1 & G2 & G3 & G4 & G5).
  (* values *)
  apply wp_bind. apply wp_mono with (P := fun Cx3 => (novals = false -> length Cx3 = L) /\ (novals = true -> Cx3 = []) /\
     (forall k, k < nz -> Cx3.[k] = Cx.[k]) /\ (novals = false -> forall k, nz <= k < nz2 -> Cx3.[k] = x2.[Ci3.[k]])).
  { destruct novals eqn:EN; [cbn [wp]; splits; auto; discriminate|].
    destruct (I4 eq_refl) as [_ LX]. specialize (J3 eq_refl).
    apply wp_for with (I := fun p X => length X = L /\ (forall k, k < nz -> X.[k] = Cx.[k]) /\ forall k, nz <= k < p -> X.[k] = x2.[Ci3.[k]]).
    - lia.
    - splits; auto. lia.
    - intros p X Hp (X1 & X2 & X3). wp1. apply wp_rd; [lia|].
      assert (Hc : Ci3.[p] < m). { apply (terms_lt j); auto. apply G4. apply In_slice; try lia. exists p. split; [lia|auto]. }
      wp1. apply wp_rd; [lia|]. apply wp_wr; [lia|]. rewrite upd_length. splits; auto.
      + intros k Hk. rewrite aget_upd_ne by lia. auto.
      + intros k Hk. destruct (Nat.eq_dec k p) as [->|Hne]; [now rewrite aget_upd_eq by lia|]. rewrite aget_upd_ne by auto. apply X3. lia.
    - intros X (X1 & X2 & X3). splits; auto. discriminate. }
  intros Cx3 (K1 & K2 & K3 & K4). cbn [wp]. unfold add_inv. rewrite upd_length. splits; auto.
  - intros i Hi. destruct (J10 i Hi) as [M1 M2]. destruct (in_dec Nat.eq_dec i (map fst (tm j))) as [H|H]; [rewrite M1; auto|specialize (M2 H); lia].
  - rewrite terms_length in J5. lia.
  - exists (fun k => if k =? S j then nz2 else cb k). cbn [Nat.eqb]. splits; auto.
    + now rewrite Nat.eqb_refl.
    + intros k Hk. replace (k =? S j) with false by lia. destruct (Nat.eq_dec k j) as [->|Hne]; [now rewrite aget_upd_eq by lia|].
      rewrite aget_upd_ne by auto. apply B2. lia.
    + intros k Hk. replace (k =? S j) with false by lia. destruct (Nat.eq_dec k j) as [->|Hne].
      * rewrite Nat.eqb_refl, B1. unfold good_col. splits; auto; try lia. intros HN k Hk2. rewrite K4 by auto. apply J11; auto.
        -- apply (terms_lt j); auto. apply G4. apply In_slice; try lia. exists k. split; [lia|auto].
        -- apply G4. apply In_slice; try lia. exists k. split; [lia|auto].
      * replace (k =? j) with false by lia.
        assert (HC : cb (S k) <= nz). { rewrite <- B1. assert (HMc : forall b a, a <= b -> b <= j -> cb a <= cb b).
          { induction b as [|b IH]; intros a Ha Hb; [replace a with 0 by lia; auto|]. destruct (Nat.eq_dec a (S b)) as [->|]; [auto|].
            destruct (B3 b ltac:(lia)) as (Q1 & _). specialize (IH a ltac:(lia) ltac:(lia)). lia. }
          apply HMc; lia. }
        apply (good_col_ext Ci Cx); auto; [apply B3; lia| |]; intros i Hi; [apply G2|apply K3]; lia.
Qed.

Lemma add_wp (Q : option (csc V) -> Prop) : cst A = cst B ->
  (forall C, cm C = m -> cn C = n -> cst C = cst A -> cpat C = cpat A -> cnnz C = L -> length (ci C) = L -> (novals = false -> length (cx C) = L) ->
     (novals = true -> cx C = []) -> wf_mat m n (cp C) (ci C) -> (cp C).[n] <= L ->
     (forall c, c < n -> good_col (ci C) (cx C) c (cp C).[c] (cp C).[S c]) -> Q (Some C)) ->
  wp (add_csc mul add A B alpha beta sort) Q.
Proof.
  intros HS HQ. unfold add_csc. replace (negb (cst A =? cst B)%Z) with false by lia. cbv zeta.
  destruct MA as (WA & NA & XA), MB as (WB & NB & XB). pose proof WA as (A1 & A2 & A3 & A4 & A5). pose proof WB as (C1 & C2 & C3 & C4 & C5).
  wp1. apply wp_rd; [lia|]. wp1. apply wp_rd; [lia|]. rewrite SN. unfold new_csc. cbn [cm cn cnnz cpat cst cp ci cx].
  replace (0 <? n) with true by lia. apply wp_bind.
  apply wp_for with (I := add_inv).
  - lia.
  - unfold add_inv. rewrite !repeat_length. splits; auto; try lia.
    + intros ->. now rewrite !repeat_length.
    + intros ->. reflexivity.
    + intros i Hi. rewrite aget_repeat by auto. lia.
    + exists (fun _ => 0). splits; auto; lia.
  - intros i st Hi HI. apply add_body_wp; [lia|auto].
  - intros [[[[[Cp w] x] Ci] Cx] nz] (I1 & I2 & I3 & I4 & I5 & I6 & I7 & cb & B0 & B1 & B2 & B3).
    wp1. apply wp_wr; [lia|]. cbn [wp].
    assert (HP : forall k, k <= n -> (upd Cp n nz).[k] = cb k).
    { intros k Hk. destruct (Nat.eq_dec k n) as [->|Hne]; [rewrite aget_upd_eq by lia; auto|]. rewrite aget_upd_ne by auto. apply B2. lia. }
    assert (GC : forall c, c < n -> good_col Ci Cx c (upd Cp n nz).[c] (upd Cp n nz).[S c]) by (intros c Hc; rewrite !HP by lia; auto).
    apply HQ; cbn [cm cn cnnz cpat cst cp ci cx]; auto.
    + intros E. now apply I4.
    + assert (W0 : (upd Cp n nz).[0] = 0) by (rewrite HP by lia; auto).
      assert (WM : forall i, i < n -> (upd Cp n nz).[i] <= (upd Cp n nz).[S i]) by (intros i Hi; destruct (GC i Hi); auto).
      assert (WN : (upd Cp n nz).[n] <= length Ci).
      { rewrite HP by lia. lia. }
      unfold wf_mat. rewrite upd_length. splits; auto; [lia|].
      intros k Hk. pose proof (col_of_in n (upd Cp n nz) k W0 WM Hk) as [Hc1 Hc2].
      set (c := col_of n (upd Cp n nz) k) in *. destruct (GC c Hc1) as (_ & Q2 & _ & Q4 & _). apply (terms_lt c); auto. apply Q4.
      apply In_slice; try lia. exists k. split; [lia|auto].
    + rewrite HP by lia. lia.
Qed.
End Main.
End Add.
