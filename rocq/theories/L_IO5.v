(** Proofs about dense_to_csc and convert_to_one_based. *)
From Coq Require Import ZifyBool ZifyNat.
From Verif Require Import Base Lib Lib2 M_Mat SpecMat M_IO SpecIO L_Util L_IO L_IO2 L_IO4.

Lemma wrs_snoc {A} (vs : list A) : forall l i v, wrs l i (vs ++ [v]) = upd (wrs l i vs) (i + length vs) v.
Proof. induction vs as [|a t IH]; intros l i v; cbn [wrs app length]; [now rewrite Nat.add_0_r|]. rewrite IH. f_equal. lia. Qed.

Section Dense.
Context {V : Type} {DV : Dflt V}.
Variables (zero : V) (isz : V -> bool) (rows cols : nat) (val : list (list V)).
Hypothesis (HR : rows <= length val) (HC : forall i, i < rows -> cols <= length val.[i]).

Definition nzc (j : nat) (i : nat) : bool := negb (isz (val.[i]).[j]).
Definition dcol (j k : nat) : list (nat * V) := map (fun i => (i, (val.[i]).[j])) (filter (nzc j) (seq 0 k)).
Definition dall (j : nat) : list (nat * V) := flat_map (fun j => dcol j rows) (seq 0 j).

Lemma dcol_S j k : dcol j (S k) = if isz (val.[k]).[j] then dcol j k else dcol j k ++ [(k, (val.[k]).[j])].
Proof. unfold dcol. rewrite seq_S, filter_app, map_app. cbn [Nat.add filter]. unfold nzc at 2. destruct (isz (val.[k]).[j]); cbn [negb map]; [now rewrite app_nil_r|reflexivity]. Qed.

Lemma dall_S j : dall (S j) = dall j ++ dcol j rows.
Proof. unfold dall. rewrite seq_S, flat_map_app. cbn [Nat.add flat_map]. now rewrite app_nil_r. Qed.

Theorem dense_ok : 0 < cols -> exists A, dense_to_csc zero isz rows cols val = Ok A /\ cm A = rows /\ cn A = cols /\ cnnz A = length (dall cols) /\ cpat A = false /\
  length (cp A) = S cols /\ (forall c, c <= cols -> (cp A).[c] = length (dall c)) /\ ci A = map fst (dall cols) /\ cx A = map snd (dall cols).
Proof.
  intros Hpos. unfold dense_to_csc. apply wp_ok. wp1.
  apply (wp_for (fun j st => fst st = length (dall j) /\ length (snd st) = cols /\ (forall c, c < j -> (snd st).[c] = length (dcol c rows)) /\ (forall c, j <= c -> c < cols -> (snd st).[c] = 0))); [lia| | |].
  { cbn [fst snd]. split; [reflexivity|]. split; [apply repeat_length|]. split; [lia|]. intros c _ Hc. now rewrite aget_repeat. }
  { intros j st [_ Hj] (E1 & E2 & E3 & E4).
    apply (wp_for (fun i st => fst st = length (dall j) + length (dcol j i) /\ length (snd st) = cols /\ (forall c, c < j -> (snd st).[c] = length (dcol c rows)) /\ (snd st).[j] = length (dcol j i) /\ (forall c, j < c -> c < cols -> (snd st).[c] = 0))); [lia| | |].
    - cbn [dcol length]. rewrite E1. unfold dcol. cbn [seq filter map length]. splits; auto; try lia. intros; apply E4; lia.
    - intros i [nnz nz] [_ Hi] (F1 & F2 & F3 & F4 & F5). cbn [fst snd] in *. wp1. wp1; [lia|]. wp1. wp1; [specialize (HC i); lia|]. rewrite dcol_S. destruct (isz (val.[i]).[j]).
      + cbn [wp fst snd]. splits; auto.
      + wp1. wp1; [lia|]. wp1. wp1; [lia|]. cbn [wp fst snd]. rewrite app_length. cbn [length]. split; [lia|]. split; [now rewrite upd_length|]. split; [|split].
        * intros c Hc. rewrite aget_upd_ne by lia. auto.
        * rewrite aget_upd_eq by lia. lia.
        * intros c Hc Hc'. rewrite aget_upd_ne by lia. auto.
    - intros st' (F1 & F2 & F3 & F4 & F5). rewrite dall_S, app_length. splits; auto.
      intros c Hc. destruct (Nat.eq_dec c j) as [->|]; auto. apply F3. lia. }
  intros [nnz nz] (E1 & E2 & E3 & E4). cbn [fst snd] in *. cbn beta iota. replace (0 <? cols) with true by lia. wp1.
  apply (wp_for (fun k p => length p = S cols /\ forall c, c <= k -> p.[c] = length (dall c))); [lia| | |].
  { split; [rewrite repeat_length; lia|]. intros c Hc. replace c with 0 by lia. rewrite aget_repeat by lia. reflexivity. }
  { intros k p [_ Hk] [L H]. wp1. wp1; [lia|]. wp1. wp1; [lia|]. wp1; [lia|]. split; [now rewrite upd_length|]. intros c Hc. destruct (Nat.eq_dec c (S k)) as [->|].
    - rewrite aget_upd_eq by lia. rewrite dall_S, app_length. rewrite H by lia. rewrite E3 by lia. reflexivity.
    - rewrite aget_upd_ne by lia. apply H. lia. }
  intros p [Lp Hp]. wp1. wp1; [lia|]. rewrite Hp by lia. rewrite E1, Nat.eqb_refl. cbn [negb]. wp1.
  set (R0 := repeat 0 (length (dall cols))). set (X0 := repeat zero (length (dall cols))).
  apply (wp_for (fun j st => st = (length (dall j), wrs R0 0 (map fst (dall j)), wrs X0 0 (map snd (dall j))))); [lia|reflexivity| |].
  { intros j st [_ Hj] ->.
    assert (BL : length (dall j ++ dcol j rows) <= length (dall cols)). { rewrite <- dall_S. unfold dall. replace cols with (S j + (cols - S j)) by lia. rewrite seq_app, flat_map_app, app_length. lia. }
    rewrite dall_S.
    apply (wp_for (fun i st => st = (length (dall j ++ dcol j i), wrs R0 0 (map fst (dall j ++ dcol j i)), wrs X0 0 (map snd (dall j ++ dcol j i))))); [lia| | |auto].
    - unfold dcol. cbn [seq filter map]. now rewrite app_nil_r.
    - intros i st [_ Hi] ->. wp1. wp1; [lia|]. wp1. wp1; [specialize (HC i); lia|].
      assert (BL2 : length (dall j ++ dcol j (S i)) <= length (dall j ++ dcol j rows)). { rewrite !app_length. unfold dcol. rewrite !map_length. replace rows with (S i + (rows - S i)) by lia. rewrite (seq_app (S i)), filter_app, app_length. lia. }
      rewrite dcol_S in *. destruct (isz (val.[i]).[j]); [cbn [wp]; reflexivity|]. rewrite !app_assoc in *. rewrite app_length in BL2. cbn [length] in BL2.
      wp1. wp1; [rewrite wrs_length; unfold R0; rewrite repeat_length; lia|]. wp1. wp1; [rewrite wrs_length; unfold X0; rewrite repeat_length; lia|]. cbn [wp].
      rewrite !map_app. cbn [map fst snd]. rewrite (app_length _ [_]). rewrite <- map_app, <- (map_app snd), !wrs_snoc, !map_length. cbn [length Nat.add]. now rewrite Nat.add_1_r. }
  intros st ->. cbn beta iota. cbn [wp cm cn cnnz cpat cp ci cx]. splits; auto.
  - apply wrs_all. unfold R0. now rewrite repeat_length, map_length.
  - apply wrs_all. unfold X0. now rewrite repeat_length, map_length.
Qed.

Lemma dall_window j : j < cols -> exists w, dall cols = dall j ++ dcol j rows ++ w.
Proof. intros Hj. unfold dall. replace cols with (j + (1 + (cols - S j))) by lia. rewrite seq_app, flat_map_app. cbn [Nat.add seq flat_map]. eauto. Qed.
End Dense.

Section One.
Context {V : Type} {DV : Dflt V}.
Variable zero : V.

Theorem one_based_ok (A : csc V) : wf_mat (cm A) (cn A) (cp A) (ci A) -> cnnz A <= length (ci A) ->
  convert_to_one_based zero A = Ok (mkCSC (cm A) (cn A) (cnnz A) (cpat A) 0%Z (0 :: firstn (S (cn A)) (cp A)) (map S (firstn (cnnz A) (ci A))) (if cpat A then [] else repeat zero (cnnz A))).
Proof.
  intros (W1 & W2 & W3 & W4 & W5) HN. unfold convert_to_one_based.
  assert (Li : length (map S (firstn (cnnz A) (ci A))) = cnnz A) by (rewrite map_length, firstn_length; lia).
  assert (GI : forall j, j < cnnz A -> forall Ri, Ri = wrs (repeat 0 (cnnz A)) 0 (map S (firstn j (ci A))) -> upd Ri j ((ci A).[j] + 1) = wrs (repeat 0 (cnnz A)) 0 (map S (firstn (S j) (ci A)))).
  { intros j Hj Ri ->. rewrite (firstn_aget (ci A) (S j)) by lia. rewrite (seq_S j 0), map_app, map_app. cbn [map Nat.add]. rewrite wrs_snoc. rewrite firstn_aget by lia. rewrite !map_length, seq_length. cbn [Nat.add]. f_equal. lia. }
  assert (FI : wrs (repeat 0 (cnnz A)) 0 (map S (firstn (cnnz A) (ci A))) = map S (firstn (cnnz A) (ci A))) by (apply wrs_all; rewrite repeat_length; auto).
  apply wp_eq. wp1.
  assert (P1 : wp (if cpat A
     then Ri <- for_ 0 (cnnz A) (fun j Ri => a <- rd (ci A) j ;; wr Ri j (a + 1)) (repeat 0 (cnnz A)) ;; Ok (Ri, if cpat A then [] else repeat zero (cnnz A))
     else for_ 0 (cnnz A) (fun j '(Ri, X) =>
            a <- rd (ci A) j ;; Ri <- wr Ri j (a + 1) ;; x <- rd X j ;; X <- wr X j x ;; Ok (Ri, X)) (repeat 0 (cnnz A), if cpat A then [] else repeat zero (cnnz A)))
    (fun st => st = (map S (firstn (cnnz A) (ci A)), if cpat A then [] else repeat zero (cnnz A)))).
  { destruct (cpat A).
    - wp1. apply (wp_for (fun j Ri => Ri = wrs (repeat 0 (cnnz A)) 0 (map S (firstn j (ci A))))); [lia|reflexivity| |].
      + intros j Ri [_ Hj] E. wp1. wp1; [lia|]. wp1; [subst; rewrite wrs_length, repeat_length; lia|]. now apply GI.
      + intros Ri ->. cbn [wp]. now rewrite FI.
    - apply (wp_for (fun j st => st = (wrs (repeat 0 (cnnz A)) 0 (map S (firstn j (ci A))), repeat zero (cnnz A)))); [lia|reflexivity| |].
      + intros j st [_ Hj] ->. wp1. wp1; [lia|]. wp1. wp1; [rewrite wrs_length, repeat_length; lia|]. wp1. wp1; [rewrite repeat_length; lia|]. wp1. wp1; [rewrite repeat_length; lia|]. cbn [wp]. f_equal; [now apply GI|].
        apply upd_same.
      + intros st ->. now rewrite FI. }
  eapply wp_mono; [exact P1|]. intros st ->. cbn beta iota. wp1.
  apply (wp_for (fun k p => p = wrs (repeat 0 (S (cn A + 1))) 1 (firstn k (cp A)))); [lia|reflexivity| |].
  - intros k p [_ Hk] ->. wp1. wp1; [lia|]. wp1; [rewrite wrs_length, repeat_length; lia|]. rewrite (firstn_aget (cp A) (S k)) by lia. rewrite (seq_S k 0), map_app. cbn [map Nat.add]. rewrite wrs_snoc. rewrite firstn_aget by lia. rewrite map_length, seq_length. reflexivity.
  - intros p ->. cbn [wp]. f_equal. rewrite Nat.add_1_r. apply list_ext; [rewrite wrs_length, repeat_length; cbn [length]; rewrite firstn_length; lia|]. intros k Hk. rewrite wrs_length, repeat_length in Hk. destruct k as [|k].
    + rewrite aget_wrs_out by lia. reflexivity.
    + change (S k) with (1 + k) at 1. rewrite aget_wrs_in by (rewrite ?repeat_length, firstn_length; lia). reflexivity.
Qed.
End One.
