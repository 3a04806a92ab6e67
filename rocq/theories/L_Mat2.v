(** More proofs about the matrix conversions: round trip, halves, full storage, permutations. *)
From Coq Require Import ZifyBool ZifyNat.
From Verif Require Import Base Lib Lib2 Lib3 Spec SpecMat M_Mat L_Mat.

#[global] Instance Dflt_pair {A B} `{Dflt A} `{Dflt B} : Dflt (A * B) := (dflt, dflt).

Section ListFacts.
Context {V : Type}.

Lemma flat_map_filter_nil m k (l : list (nat * V)) : (forall e, In e l -> k + m <= fst e) ->
  flat_map (fun r => filter (fun e => fst e =? r) l) (seq k m) = [].
Proof.
  revert k. induction m as [|m IH]; intros k H; [reflexivity|]. cbn [seq flat_map]. rewrite IH.
  - rewrite app_nil_r. clear IH. induction l as [|e t IHl]; auto. cbn [filter].
    pose proof (H e (or_introl eq_refl)). replace (fst e =? k) with false by lia. apply IHl. intros e' He'. apply H. now right.
  - intros e He. specialize (H e He). lia.
Qed.

(** concatenating the buckets of a sorted list gives it back *)
Lemma buckets_of_sorted m (l : list (nat * V)) : nondecreasing l -> (forall e, In e l -> fst e < m) ->
  flat_map (fun r => filter (fun e => fst e =? r) l) (seq 0 m) = l.
Proof.
  intros HS HB. induction l as [|e t IH].
  - clear. generalize 0. induction m as [|m IH]; intros k; simpl; auto.
  - destruct HS as [H1 H2]. specialize (IH H2 (fun e' He' => HB e' (or_intror He'))).
    assert (Hm : fst e < m) by (apply HB; now left). replace m with (fst e + S (m - fst e - 1)) in * by lia.
    rewrite seq_app, flat_map_app in *. cbn [Nat.add seq flat_map] in *.
    rewrite flat_map_filter_nil in IH by (intros e' He'; specialize (H1 e' He'); lia).
    rewrite flat_map_filter_nil by (intros e' [<-|He']; [lia|specialize (H1 e' He'); lia]).
    cbn [app] in *. rewrite <- IH at 2. cbn [filter]. rewrite Nat.eqb_refl. cbn [app]. f_equal. f_equal.
    apply flat_map_ext_in. intros r Hr. apply in_seq in Hr. cbn [filter]. now replace (fst e =? r) with false by lia.
Qed.

Lemma row_of_filter n (cols : nat -> list (nat * V)) c r : c < n ->
  filter (fun e => fst e =? c) (row_of n cols r) = map (fun e => (c, snd e)) (filter (fun e => fst e =? r) (cols c)).
Proof.
  intros Hc. unfold row_of. rewrite filter_flat_map.
  assert (G : forall k m, flat_map (fun x => filter (fun e => fst e =? c) (map (fun e => (x, snd e)) (filter (fun e => fst e =? r) (cols x)))) (seq k m)
     = if (k <=? c) && (c <? k + m) then map (fun e => (c, snd e)) (filter (fun e => fst e =? r) (cols c)) else []).
  { intros k m. revert k. induction m as [|m IH]; intros k.
    - replace ((k <=? c) && (c <? k + 0)) with false by lia. reflexivity.
    - cbn [seq flat_map]. rewrite IH. rewrite filter_map_comm. cbn [fst]. destruct (Nat.eqb_spec k c) as [->|Hn].
      + replace ((c <=? c) && (c <? c + S m)) with true by lia.
        replace ((S c <=? c) && (c <? S c + m)) with false by lia. rewrite app_nil_r.
        f_equal. generalize (filter (fun e => fst e =? r) (cols c)). intros l. induction l as [|e t IHl]; simpl; auto. now rewrite IHl.
      + replace (filter (fun _ => false) (filter (fun e => fst e =? r) (cols k))) with (@nil (nat * V)).
        * cbn [map app]. replace ((k <=? c) && (c <? k + S m)) with ((S k <=? c) && (c <? S k + m)) by lia. reflexivity.
        * generalize (filter (fun e => fst e =? r) (cols k)). intros l. induction l; simpl; auto. }
  rewrite G. replace ((0 <=? c) && (c <? 0 + n)) with true by lia. reflexivity.
Qed.

(** transposing twice *)
Lemma row_of_row_of m n (cols : nat -> list (nat * V)) c : c < n -> nondecreasing (cols c) ->
  (forall e, In e (cols c) -> fst e < m) -> row_of m (row_of n cols) c = cols c.
Proof.
  intros Hc HS HB. unfold row_of at 1.
  transitivity (flat_map (fun r => filter (fun e => fst e =? r) (cols c)) (seq 0 m)); [|now apply buckets_of_sorted].
  apply flat_map_ext_in. intros r _. rewrite row_of_filter by auto. rewrite map_map. cbn [snd].
  rewrite <- (map_id (filter (fun e => fst e =? r) (cols c))) at 2.
  apply map_ext_in. intros [a v] He. apply filter_In in He. destruct He as [_ He]. cbn [fst snd] in *. f_equal. lia.
Qed.

Lemma row_of_In n (cols : nat -> list (nat * V)) r c v : In (c, v) (row_of n cols r) <-> c < n /\ In (r, v) (cols c).
Proof.
  unfold row_of. rewrite in_flat_map. split.
  - intros (c' & Hc' & H). apply in_map_iff in H. destruct H as ([r' v'] & E & H). apply filter_In in H. cbn [fst snd] in *.
    inversion E; subst. destruct H as [H1 H2]. apply in_seq in Hc'. apply Nat.eqb_eq in H2. subst. split; [lia|auto].
  - intros [Hc H]. exists c. split; [apply in_seq; lia|]. apply in_map_iff. exists (r, v). split; auto.
    apply filter_In. cbn [fst]. rewrite Nat.eqb_refl. auto.
Qed.

Lemma nondecreasing_app (l l' : list (nat * V)) : nondecreasing l -> nondecreasing l' ->
  (forall e e', In e l -> In e' l' -> fst e <= fst e') -> nondecreasing (l ++ l').
Proof.
  induction l as [|e t IH]; simpl; auto. intros [H1 H2] H3 H4. split; auto.
  intros e' He'. apply in_app_or in He'. destruct He'; auto.
Qed.

Lemma row_of_sorted n (cols : nat -> list (nat * V)) r : nondecreasing (row_of n cols r).
Proof.
  unfold row_of. assert (G : forall m k, nondecreasing (flat_map (fun c => map (fun e => (c, snd e)) (filter (fun e => fst e =? r) (cols c))) (seq k m))).
  { induction m as [|m IH]; intros k; simpl; auto. apply nondecreasing_app; auto.
    - generalize (filter (fun e => fst e =? r) (cols k)). intros l. induction l as [|e t IHl]; simpl; auto. split; auto.
      intros e' He'. apply in_map_iff in He'. destruct He' as (x & <- & _). simpl. lia.
    - intros e e' He He'. apply in_map_iff in He. destruct He as (x & <- & _). apply in_flat_map in He'.
      destruct He' as (c & Hc & He'). apply in_map_iff in He'. destruct He' as (y & <- & _). apply in_seq in Hc. simpl. lia. }
  apply G.
Qed.

End ListFacts.

Section More.
Context {V : Type} {DV : Dflt V}.

Lemma col_length Ap Ai (Ax : list V) c : length (col Ap Ai Ax c) = Ap.[S c] - Ap.[c].
Proof. unfold col. now rewrite map_length, seq_length. Qed.

Lemma col_aget Ap Ai (Ax : list V) c k : k < Ap.[S c] - Ap.[c] ->
  (col Ap Ai Ax c).[k] = (Ai.[Ap.[c] + k], Ax.[Ap.[c] + k]).
Proof. intros H. unfold col. rewrite aget_map by (rewrite seq_length; auto). now rewrite aget_seq. Qed.

(** matrices with the same columns have the same arrays *)
Lemma cols_eq m n Ap Ai (Ax : list V) Bp Bi (Bx : list V) : wf_mat m n Ap Ai -> wf_mat m n Bp Bi ->
  (forall c, c < n -> col Ap Ai Ax c = col Bp Bi Bx c) ->
  (forall c, c <= n -> Ap.[c] = Bp.[c]) /\ (forall k, k < Ap.[n] -> Ai.[k] = Bi.[k] /\ Ax.[k] = Bx.[k]).
Proof.
  intros (W1 & W2 & W3 & W4 & W5) (B1 & B2 & B3 & B4 & B5) H.
  assert (G : forall c, c <= n -> Ap.[c] = Bp.[c]).
  { induction c as [|c IH]; intros Hc; [congruence|]. specialize (IH ltac:(lia)).
    pose proof (f_equal (@length _) (H c ltac:(lia))) as E. rewrite !col_length in E.
    specialize (W3 c ltac:(lia)). specialize (B3 c ltac:(lia)). lia. }
  split; auto. intros k Hk. destruct (in_col_exists n Ap k W2 Hk) as (c & Hc & Hkc).
  pose proof (f_equal (fun l => l.[k - Ap.[c]]) (H c Hc)) as E. cbv beta in E.
  rewrite !col_aget in E by (rewrite <- ?G; lia). rewrite <- (G c) in E by lia.
  replace (Ap.[c] + (k - Ap.[c])) with k in E by lia. inversion E. auto.
Qed.

Lemma col_In_bound m n Ap Ai (Ax : list V) c e : wf_mat m n Ap Ai -> c < n -> In e (col Ap Ai Ax c) -> fst e < m.
Proof.
  intros W Hc He. unfold col in He. apply in_map_iff in He. destruct He as (k & <- & Hk). apply in_seq in Hk. simpl.
  pose proof W as (W1 & W2 & W3 & W4 & W5). apply W5. pose proof (wf_mat_le _ _ _ _ (S c) W ltac:(lia)). lia.
Qed.

Lemma roundtrip_wp m n Ap Ai (Ax : list V) Bp Bi Bx (Q : list nat * list nat * list V -> Prop) :
  wf_mat m n Ap Ai -> Ap.[n] <= length Ax -> (forall c, c < n -> nondecreasing (col Ap Ai Ax c)) ->
  rows_exact false m n Ap Ai Ax Bp Bi Bx -> 
  Q (firstn (S n) Ap, firstn Ap.[n] Ai, firstn Ap.[n] Ax) ->
  wp (csc_to_csr_arr n m Bp Bi Bx) Q.
Proof.
  intros W HX HS (WB & EB & LB & _ & RB) HQ. apply csc_to_csr_arr_wp; [auto|rewrite EB; auto|].
  intros Cp Ci Cx L1 L2 L3 (WC & EC & _ & _ & RC).
  assert (HC : forall c, c < n -> col Ap Ai Ax c = col Cp Ci Cx c).
  { intros c Hc. rewrite RC by auto. transitivity (row_of m (row_of n (col Ap Ai Ax)) c).
    - symmetry. apply row_of_row_of; auto. intros e He. exact (col_In_bound m n Ap Ai Ax c e W Hc He).
    - unfold row_of at 1 3. apply flat_map_ext_in. intros r Hr. apply in_seq in Hr. rewrite <- RB by (auto; lia). reflexivity. }
  destruct (cols_eq m n Ap Ai Ax Cp Ci Cx W WC HC) as [G1 G2]. pose proof W as (W1 & W2 & W3 & W4 & W5).
  assert (E1 : Cp = firstn (S n) Ap).
  { apply list_ext; [rewrite firstn_length; lia|]. intros i Hi. rewrite firstn_slice, aget_slice by lia. symmetry. apply G1. lia. }
  assert (E2 : Ci = firstn Ap.[n] Ai).
  { rewrite EB in L2. apply list_ext; [rewrite firstn_length; lia|]. intros i Hi. rewrite firstn_slice, aget_slice by lia. symmetry. apply G2. lia. }
  assert (E3 : Cx = firstn Ap.[n] Ax).
  { rewrite EB in L3. apply list_ext; [rewrite firstn_length; lia|]. intros i Hi. rewrite firstn_slice, aget_slice by lia. symmetry. apply G2. lia. }
  rewrite E1, E2, E3. exact HQ.
Qed.

(** ** Compaction: the kept items, in order *)

Lemma rank_slice {A} (h : nat -> bool) (out g : nat -> A) a b : a <= b ->
  (forall j, a <= j < b -> h j = true -> out (cnt 0 j h) = g j) ->
  map out (seq (cnt 0 a h) (cnt a b h)) = map g (filter h (seq a (b - a))).
Proof.
  intros Hab. revert b Hab. 
  assert (G : forall d, (forall j, a <= j < a + d -> h j = true -> out (cnt 0 j h) = g j) ->
    map out (seq (cnt 0 a h) (cnt a (a + d) h)) = map g (filter h (seq a d))).
  { induction d as [|d IH]; intros H.
    - rewrite Nat.add_0_r. rewrite (cnt_filter a a), Nat.sub_diag. reflexivity.
    - rewrite seq_S, filter_app, map_app, <- IH by (intros; apply H; auto; lia).
      rewrite Nat.add_succ_r, cnt_S by lia. rewrite seq_app, map_app. f_equal. cbn [filter].
      destruct (h (a + d)) eqn:E; auto. cbn [Nat.b2n seq map]. rewrite <- H by (auto; lia).
      now rewrite (cnt_split 0 a (a + d)) by lia. }
  intros b Hab H. replace b with (a + (b - a)) at 1 by lia. apply G. intros j Hj. apply H. lia.
Qed.

Lemma cnt_0_mono h a b : a <= b -> cnt 0 a h <= cnt 0 b h.
Proof. intros H. rewrite (cnt_split 0 a b) by lia. lia. Qed.

Section Half.
Variables (n : nat) (Ap Ai : list nat) (Ax : list V) (pat lower : bool).
Hypothesis W : wf_mat n n Ap Ai.
Hypothesis HX : pat = false -> Ap.[n] <= length Ax.

Let h (j : nat) : bool := in_half lower (col_of n Ap j) Ai.[j].

Lemma half_h i j : i < n -> Ap.[i] <= j < Ap.[S i] -> in_half lower i Ai.[j] = h j /\ j < Ap.[n] /\ j < length Ai.
Proof.
  intros Hi Hj. pose proof (wf_mat_le _ _ _ _ (S i) W ltac:(lia)). pose proof W as (W1 & W2 & W3 & W4 & W5).
  unfold h. rewrite (in_col_col_of n Ap j i) by (auto; split; auto). splits; auto; lia.
Qed.

Definition half_inv (Bnz j : nat) (st : list nat * list V * nat) : Prop :=
  let '(bi, bx, c) := st in
  c = cnt 0 j h /\ length bi = Bnz /\ (pat = false -> length bx = Bnz) /\ (pat = true -> bx = []) /\
  (forall k, k < j -> h k = true -> bi.[cnt 0 k h] = Ai.[k]) /\
  (pat = false -> forall k, k < j -> h k = true -> bx.[cnt 0 k h] = Ax.[k]).

Lemma half_step i j bi bx c : i < n -> Ap.[i] <= j < Ap.[S i] -> half_inv (cnt 0 Ap.[n] h) j (bi, bx, c) ->
  wp (r <- rd Ai j ;;
      if in_half lower i r then
        bi' <- wr bi c r ;;
        bx' <- (if pat then Ok bx else v <- rd Ax j ;; wr bx c v) ;;
        Ok (bi', bx', c + 1)
      else Ok (bi, bx, c)) (half_inv (cnt 0 Ap.[n] h) (S j)).
Proof.
  intros Hi Hj (I1 & I2 & I3 & I4 & I5 & I6). destruct (half_h i j Hi Hj) as (E1 & E2 & E3).
  wp1. apply wp_rd; [auto|]. rewrite E1.
  assert (HL : forall k, k < j -> h k = true -> cnt 0 k h < cnt 0 j h).
  { intros k Hk Hh. rewrite (cnt_split 0 (S k) j) by lia. rewrite cnt_S by lia. rewrite Hh. simpl. lia. }
  destruct (h j) eqn:Eh.
  - assert (Hc : c < cnt 0 Ap.[n] h).
    { subst c. rewrite (cnt_split 0 (S j) Ap.[n]) by lia. rewrite cnt_S by lia. rewrite Eh. simpl. lia. }
    assert (G : forall bx', (pat = true -> bx' = []) -> (pat = false -> bx' = upd bx c Ax.[j]) ->
        half_inv (cnt 0 Ap.[n] h) (S j) (upd bi c Ai.[j], bx', c + 1)).
    { intros bx' G1 G2. unfold half_inv. rewrite cnt_S by lia. rewrite Eh. rewrite upd_length. splits; auto.
      - intros Hp. rewrite G2 by auto. rewrite upd_length. auto.
      - intros k Hk Hh. destruct (Nat.eq_dec k j) as [->|Hn].
        + rewrite I1. rewrite aget_upd_eq by lia. reflexivity.
        + specialize (HL k ltac:(lia) Hh). rewrite aget_upd_ne by lia. apply I5; auto. lia.
      - intros Hp k Hk Hh. rewrite G2 by auto. specialize (I3 Hp). destruct (Nat.eq_dec k j) as [->|Hn].
        + rewrite I1. rewrite aget_upd_eq by lia. reflexivity.
        + specialize (HL k ltac:(lia) Hh). rewrite aget_upd_ne by lia. apply I6; auto. lia. }
    wp1. apply wp_wr; [lia|]. apply wp_bind. destruct pat.
    + cbn [wp]. apply G; auto. discriminate.
    + wp1. apply wp_rd; [specialize (HX eq_refl); lia|]. apply wp_wr; [rewrite I3; auto|]. cbn [wp].
      apply G; auto. discriminate.
  - cbn [wp]. unfold half_inv. rewrite cnt_S by lia. rewrite Eh. simpl. rewrite Nat.add_0_r. splits; auto.
    + intros k Hk Hh. apply I5; auto. assert (k <> j) by congruence. lia.
    + intros Hp k Hk Hh. apply I6; auto. assert (k <> j) by congruence. lia.
Qed.

Lemma half_filter i : i < n ->
  map (fun k => (Ai.[k], Ax.[k])) (filter h (seq Ap.[i] (Ap.[S i] - Ap.[i]))) = half_col lower (col Ap Ai Ax) i.
Proof.
  intros Hi. unfold half_col, col. rewrite filter_map_comm. f_equal. apply filter_ext_in. intros k Hk.
  apply in_seq in Hk. destruct (half_h i k Hi ltac:(lia)) as (E & _). rewrite <- E. reflexivity.
Qed.

Lemma make_half_wp (Q : csc V -> Prop) :
  (forall B, cm B = n -> cn B = n -> cpat B = pat -> cst B = (-1)%Z -> wf_mat n n (cp B) (ci B) ->
     (0 < n -> cnnz B = (cp B).[n]) ->
     (forall i, i < n -> map fst (col (cp B) (ci B) (cx B) i) = map fst (half_col lower (col Ap Ai Ax) i)) ->
     (pat = false -> forall i, i < n -> col (cp B) (ci B) (cx B) i = half_col lower (col Ap Ai Ax) i) -> (pat = false -> (cp B).[n] <= length (cx B)) -> Q B) ->
  0 < n -> wp (make_half n Ap Ai pat Ax lower) Q.
Proof.
  intros HQ Hn. pose proof W as (W1 & W2 & W3 & W4 & W5). unfold make_half. apply wp_bind.
  apply (wp_cols (fun j c => c = cnt 0 j h)); auto.
  { intros i j c Hi Hj ->. destruct (half_h i j Hi Hj) as (E1 & E2 & E3). wp1. apply wp_rd; [auto|]. cbn [wp].
    rewrite E1, cnt_S by lia. destruct (h j); simpl; lia. }
  intros c ->. unfold new_csc. cbn [cp ci cx]. replace (0 <? n) with true by lia. apply wp_bind.
  apply wp_for with (I := fun i '(bp, bi, bx, c) => length bp = S n /\
     (forall k, k <= i -> bp.[k] = cnt 0 Ap.[k] h) /\ half_inv (cnt 0 Ap.[n] h) Ap.[i] (bi, bx, c)).
  - lia.
  - rewrite repeat_length. splits; try lia.
    + intros k Hk. replace k with 0 by lia. rewrite W2. rewrite aget_repeat by lia. reflexivity.
    + rewrite W2. unfold half_inv. rewrite repeat_length. splits; auto; try lia.
      * intros Hp. now rewrite Hp, repeat_length.
      * intros Hp. now rewrite Hp.
  - intros i [[[bp bi] bx] c] Hi (I1 & I2 & I3). wp1. apply wp_rd; [lia|]. wp1. apply wp_rd; [lia|].
    specialize (W3 i ltac:(lia)). apply wp_bind.
    apply wp_for with (I := half_inv (cnt 0 Ap.[n] h)); auto.
    + intros j [[b x] c1] Hj HI. apply half_step; auto; lia.
    + intros [[b x] c1] HI. wp1. apply wp_wr; [lia|]. cbn [wp]. rewrite upd_length. splits; auto.
      intros k Hk. destruct (Nat.eq_dec k (S i)) as [->|Hne].
      * rewrite aget_upd_eq by lia. now destruct HI.
      * rewrite aget_upd_ne by auto. apply I2. lia.
  - intros [[[bp bi] bx] c] (I1 & I2 & (J1 & J2 & J3 & J4 & J5 & J6)). cbn [wp].
    assert (HC : forall i, i < n -> bp.[S i] - bp.[i] = cnt Ap.[i] Ap.[S i] h).
    { intros i Hi. rewrite !I2 by lia. specialize (W3 i ltac:(lia)). rewrite (cnt_split 0 Ap.[i] Ap.[S i]) by lia. lia. }
    assert (HN : forall i k, i < n -> Ap.[i] <= k < Ap.[S i] -> k < Ap.[n]).
    { intros i k Hi Hk. pose proof (wf_mat_le _ _ _ _ (S i) W ltac:(lia)). lia. }
    apply HQ; auto; cbn [cm cn cnnz cpat cst cp ci cx].
    + unfold wf_mat. splits; try lia.
      * rewrite I2, W2 by lia. reflexivity.
      * intros i Hi. rewrite !I2 by lia. apply cnt_0_mono. auto.
      * rewrite I2 by lia. lia.
      * intros k Hk. rewrite I2 in Hk by lia.
        assert (E : map (fun p => bi.[p]) (seq (cnt 0 0 h) (cnt 0 Ap.[n] h)) = map (aget Ai) (filter h (seq 0 (Ap.[n] - 0)))).
        { apply rank_slice; [lia|]. intros j Hj. apply J5. lia. }
        change (cnt 0 0 h) with 0 in E.
        assert (In bi.[k] (map (aget Ai) (filter h (seq 0 (Ap.[n] - 0))))) as HI.
        { rewrite <- E. apply in_map_iff. exists k. split; auto. apply in_seq. lia. }
        apply in_map_iff in HI. destruct HI as (j & <- & Hj). apply filter_In in Hj. destruct Hj as [Hj _].
        apply in_seq in Hj. apply W5. lia.
    + intros _. now rewrite I2 by lia.
    + intros i Hi. rewrite <- half_filter by auto. unfold col. rewrite !map_map. cbn [fst]. rewrite HC, I2 by lia.
      apply (rank_slice h (fun p => bi.[p]) (aget Ai)); auto. intros j Hj. apply J5. eauto.
    + intros Hp i Hi. rewrite <- half_filter by auto. unfold col. rewrite HC, I2 by lia.
      apply (rank_slice h (fun p => (bi.[p], bx.[p])) (fun k => (Ai.[k], Ax.[k]))); auto.
      intros j Hj Hh. rewrite J5, J6 by eauto. reflexivity.
    + intros Hp. rewrite I2, J3 by auto. lia.
Qed.

End Half.
End More.
