(** Proofs about CSC_to_mtx, convert_to_one_based and dense_to_csc. *)
From Coq Require Import ZifyBool ZifyNat.
From Verif Require Import Base Lib Lib2 M_Mat SpecMat M_IO SpecIO L_Util L_Sparse4 L_Super3 L_IO L_IO2 L_IO3.

Lemma wp_eq {S} (r : res S) (s : S) : wp r (fun x => x = s) -> r = Ok s.
Proof. intros H. apply wp_ok in H. destruct H as (x & -> & ->). reflexivity. Qed.

Lemma firstn_aget {B} `{Dflt B} (l : list B) k : k <= length l -> firstn k l = map (fun q => l.[q]) (seq 0 k).
Proof. intros Hk. apply list_ext; [rewrite firstn_length, map_length, seq_length; lia|]. intros q Hq. rewrite firstn_length in Hq. rewrite aget_firstn by lia. symmetry. apply (aget_map_seq (fun q => l.[q])). lia. Qed.

Section Write.
Context {V : Type} {DV : Dflt V}.
Variables (zero : V) (ofZ : Z -> V) (round : V -> V) (A : csc V).
Let n := cn A.
Let p := cp A.
Hypothesis (HW : wf_mat (cm A) (cn A) (cp A) (ci A)) (HX : length (ci A) <= length (cx A)).

Definition mat_file : list (nat * nat * tok (V := V)) :=
  flat_map (fun c => map (fun k => ((ci A).[k], c, TReal (round (cx A).[k]))) (seq (cp A).[c] ((cp A).[S c] - (cp A).[c]))) (seq 0 (cn A)).

Lemma file_toks_app a b : file_toks (V := V) (a ++ b) = file_toks a ++ file_toks b.
Proof. unfold file_toks. apply flat_map_app. Qed.

Lemma p_mono c c' : c <= c' -> c' <= n -> p.[c] <= p.[c'].
Proof. destruct HW as (_ & _ & H & _ & _). apply mono_le; auto. Qed.

Lemma CSC_to_mtx_ok : CSC_to_mtx round A = Ok (cm A, cn A, cnnz A, file_toks mat_file).
Proof.
  unfold CSC_to_mtx. destruct HW as (Hl & Hp0 & Hm & Hi & _).
  assert (G : for_ 0 (cn A) (fun c out =>
      b <- rd (cp A) c ;; e <- rd (cp A) (S c) ;;
      for_ b e (fun j out => r <- rd (ci A) j ;; x <- rd (cx A) j ;;
        Ok (out ++ [TInt (Z.of_nat r + 1); TInt (Z.of_nat c + 1); TReal (round x)])) out) [] = Ok (file_toks mat_file)); [|now rewrite G].
  apply wp_eq. apply (wp_for (fun c out => out = file_toks (flat_map (fun c => map (fun k => ((ci A).[k], c, TReal (round (cx A).[k]))) (seq (cp A).[c] ((cp A).[S c] - (cp A).[c]))) (seq 0 c)))); [lia|reflexivity| |auto].
  intros c out [_ Hc] ->. wp1. wp1; [lia|]. wp1. wp1; [lia|]. pose proof (p_mono c (S c) ltac:(lia) ltac:(unfold n; lia)) as M. pose proof (p_mono (S c) n ltac:(unfold n; lia) ltac:(lia)) as M2. unfold p, n in M, M2.
  rewrite seq_S, flat_map_app. cbn [Nat.add flat_map]. rewrite app_nil_r.
  apply (wp_for (fun k out => out = file_toks (flat_map (fun c => map (fun k => ((ci A).[k], c, TReal (round (cx A).[k]))) (seq (cp A).[c] ((cp A).[S c] - (cp A).[c]))) (seq 0 c) ++ map (fun k => ((ci A).[k], c, TReal (round (cx A).[k]))) (seq (cp A).[c] (k - (cp A).[c]))))); [auto| | |auto].
  - now rewrite Nat.sub_diag, app_nil_r.
  - intros k out [K1 K2] ->. wp1. wp1; [lia|]. wp1. wp1; [lia|]. cbn [wp]. replace (S k - (cp A).[c]) with (S (k - (cp A).[c])) by lia. replace (S (k - (cp A).[c])) with ((k - (cp A).[c]) + 1) by lia. rewrite seq_app, map_app, app_assoc. replace ((cp A).[c] + (k - (cp A).[c])) with k by lia. symmetry. rewrite (file_toks_app (_ ++ _)). reflexivity.
Qed.

Lemma flat_seq {B} (f : nat -> B) c : c <= n -> flat_map (fun c => map f (seq p.[c] (p.[S c] - p.[c]))) (seq 0 c) = map f (seq 0 p.[c]).
Proof.
  destruct HW as (_ & Hp0 & _). fold p in Hp0. induction c as [|c IH]; intros Hc; [rewrite Hp0; reflexivity|]. rewrite seq_S, flat_map_app. cbn [Nat.add flat_map]. rewrite app_nil_r, IH by lia.
  rewrite <- map_app. f_equal. pose proof (p_mono c (S c)). replace p.[S c] with (p.[c] + (p.[S c] - p.[c])) at 2 by lia. rewrite seq_app. reflexivity.
Qed.

Lemma map_flat_map {X Y W} (g : Y -> W) (f : X -> list Y) l : map g (flat_map f l) = flat_map (fun x => map g (f x)) l.
Proof. induction l as [|a l IH]; auto. cbn [flat_map]. now rewrite map_app, IH. Qed.

Lemma mat_file_rows : map (fun e => Z.of_nat (erow e)) (map (file_ent ofZ) mat_file) = map (fun k => Z.of_nat (ci A).[k]) (seq 0 p.[n]).
Proof. rewrite <- (flat_seq (fun k => Z.of_nat (ci A).[k]) n) by lia. unfold mat_file. rewrite map_map, map_flat_map. apply flat_map_ext. intros c. rewrite map_map. apply map_ext. intros k. reflexivity. Qed.

Lemma mat_file_vals : map eval (map (file_ent ofZ) mat_file) = map (fun k => round (cx A).[k]) (seq 0 p.[n]).
Proof. rewrite <- (flat_seq (fun k => round (cx A).[k]) n) by lia. unfold mat_file. rewrite map_map, map_flat_map. apply flat_map_ext. intros c. rewrite map_map. apply map_ext. intros k. reflexivity. Qed.

Lemma mat_file_len : length mat_file = p.[n].
Proof. rewrite <- (map_length (file_ent ofZ)), <- (map_length (fun e : ent V => Z.of_nat (erow e))), mat_file_rows, map_length, seq_length. reflexivity. Qed.

Lemma mat_file_In e : In e (map (file_ent ofZ) mat_file) -> exists c k, c < n /\ p.[c] <= k < p.[S c] /\ e = ((ci A).[k], c, round (cx A).[k]).
Proof.
  intros H. apply in_map_iff in H. destruct H as (x & <- & H). apply in_flat_map in H. destruct H as (c & Hc & H). apply in_map_iff in H. destruct H as (k & <- & Hk). apply in_seq in Hc, Hk.
  exists c, k. unfold n, p. splits; try lia. reflexivity.
Qed.

Lemma mat_file_fits : fits (cm A) n (map (file_ent ofZ) mat_file).
Proof.
  intros e H. apply mat_file_In in H. destruct H as (c & k & Hc & Hk & ->). unfold erow, ecol. cbn [fst snd]. split; auto. destruct HW as (_ & _ & _ & Hi & Hr).
  apply Hr. pose proof (p_mono (S c) n). unfold n, p in *. lia.
Qed.

Lemma flat_by_cols f k : (forall c e, In e (f c) -> ecol e = c) -> by_columns (V := V) (flat_map f (seq 0 k)).
Proof.
  intros HF. induction k as [|k IH]; [apply sorted_le_nil|]. rewrite seq_S, flat_map_app. cbn [Nat.add flat_map]. rewrite app_nil_r. apply by_columns_app; auto.
  - assert (G : forall l, (forall e, In e l -> ecol e = k) -> by_columns (V := V) l). { induction l as [|e l IHl]; intros H; [apply sorted_le_nil|]. apply by_columns_cons. split; [intros e' H'; rewrite (H e) by (left; auto); rewrite (H e') by (right; auto); auto|]. apply IHl. intros; apply H; right; auto. }
    apply G. intros e. apply HF.
  - intros e e' H H'. apply in_flat_map in H. destruct H as (j & Hj & H). apply in_seq in Hj. apply HF in H, H'. lia.
Qed.

Lemma flat_cntlt (f : nat -> list (ent V)) k c : (forall c e, In e (f c) -> ecol e = c) -> c <= k -> cntlt (flat_map f (seq 0 k)) c = length (flat_map f (seq 0 c)).
Proof.
  intros HF Hc. unfold cntlt. replace k with (c + (k - c)) by lia. rewrite seq_app, flat_map_app, filter_app, app_length. cbn [Nat.add].
  assert (G1 : forall l, (forall e, In e l -> ecol e < c) -> filter (fun e : ent V => ecol e <? c) l = l). { induction l as [|a l IH]; intros H; auto. cbn [filter]. rewrite (proj2 (Nat.ltb_lt _ _)) by (apply H; left; auto). f_equal. apply IH. intros; apply H; right; auto. }
  assert (G2 : forall l, (forall e, In e l -> c <= ecol e) -> filter (fun e : ent V => ecol e <? c) l = []). { induction l as [|a l IH]; intros H; auto. cbn [filter]. rewrite (proj2 (Nat.ltb_ge _ _)) by (apply H; left; auto). apply IH. intros; apply H; right; auto. }
  rewrite G1, G2; [cbn [length]; lia| |]; intros e H; apply in_flat_map in H; destruct H as (j & Hj & H); apply in_seq in Hj; apply HF in H; lia.
Qed.

Definition mcol (c : nat) : list (ent V) := map (fun k => ((ci A).[k], c, round (cx A).[k])) (seq p.[c] (p.[S c] - p.[c])).

Lemma mat_file_ents : map (file_ent ofZ) mat_file = flat_map mcol (seq 0 n).
Proof. unfold mat_file. rewrite map_flat_map. apply flat_map_ext. intros c. unfold mcol. rewrite map_map. apply map_ext. intros k. reflexivity. Qed.

Lemma mcol_col c e : In e (mcol c) -> ecol e = c.
Proof. unfold mcol. intros H. apply in_map_iff in H. destruct H as (k & <- & _). reflexivity. Qed.

Lemma mat_file_sorted : by_columns (map (file_ent ofZ) mat_file).
Proof. rewrite mat_file_ents. apply flat_by_cols, mcol_col. Qed.

Lemma mat_file_cntlt c : c <= n -> cntlt (map (file_ent ofZ) mat_file) c = p.[c].
Proof.
  intros Hc. rewrite mat_file_ents, flat_cntlt by (auto using mcol_col). pose proof (flat_seq (fun k => k) c Hc) as E. apply (f_equal (@length nat)) in E. rewrite map_length, seq_length in E. rewrite <- E.
  clear. induction (seq 0 c) as [|a l IH]; auto. cbn [flat_map]. rewrite !app_length, IH. unfold mcol. rewrite !map_length. reflexivity.
Qed.

Lemma holds_p (es : list (ent V)) q i x : holds n es q i x -> forall c, c <= n -> q.[c] = cntlt es c.
Proof.
  intros H. pose proof H as (_ & H0 & _ & Hm & _). induction c as [|c IH]; intros Hc; [now rewrite cntlt_0|]. pose proof (holds_count _ _ _ _ _ c H ltac:(lia)). specialize (Hm c ltac:(lia)). rewrite cntlt_step. specialize (IH ltac:(lia)). lia.
Qed.

(** writing and reading back *)
Theorem round_trip : cnnz A = (cp A).[cn A] -> 0 < cnnz A -> forall sym, exists B,
  read_mtx zero ofZ (cm A) (cn A) (cnnz A) sym (file_toks mat_file) = Ok (Some B) /\ mm B = cm A /\ mn B = cn A /\ mnnz B = cnnz A /\ mst B = (if sym then -1 else 0)%Z /\
  mi B = map Z.of_nat (firstn (cnnz A) (ci A)) /\ mx B = map round (firstn (cnnz A) (cx A)) /\
  (mp B = firstn (S (cn A)) (cp A) <-> (forall c, c < cn A -> (cp A).[c] < (cp A).[S c]) \/ (cp A).[cn A - 1] = 0).
Proof.
  intros HZ Hpos sym. pose proof mat_file_len as HL. unfold p, n in HL. rewrite <- HZ in HL.
  pose proof (read_mtx_res zero ofZ (cm A) (cn A) mat_file ltac:(lia) mat_file_fits mat_file_sorted sym []) as R. rewrite app_nil_r, HL in R. eexists. split; [exact R|]. cbn [mm mn mnnz mst mp mi mx]. split; [auto|]. split; [auto|]. split; [auto|]. split; [auto|].
  destruct HW as (W1 & W2 & W3 & W4 & W5).
  split. { rewrite mat_file_rows. unfold p, n. rewrite <- HZ, firstn_aget by lia. now rewrite map_map. }
  split. { rewrite mat_file_vals. unfold p, n. rewrite <- HZ, firstn_aget by lia. now rewrite map_map. }
  pose proof (read_mtx_iff ofZ (cm A) (cn A) mat_file ltac:(lia) mat_file_fits mat_file_sorted) as I.
  assert (Hn : 0 < cn A). { destruct (cn A) eqn:E; [|lia]. rewrite W2 in HZ. lia. }
  assert (I2 : (forall c, c < cn A -> (cp A).[c] < (cp A).[S c]) <-> (forall c, c < cn A -> in_col (map (file_ent ofZ) mat_file) c <> [])).
  { assert (K : forall c, c < cn A -> (cp A).[S c] = (cp A).[c] + length (in_col (map (file_ent ofZ) mat_file) c)).
    { intros c Hc. change (p.[S c] = p.[c] + length (in_col (map (file_ent ofZ) mat_file) c)). rewrite <- (mat_file_cntlt c), <- (mat_file_cntlt (S c)) by (unfold n; lia). apply cntlt_step. }
    split; intros H c Hc; specialize (H c Hc); specialize (K c Hc); destruct (in_col (map (file_ent ofZ) mat_file) c); cbn [length] in K; try lia; congruence. }
  assert (I3 : (cp A).[cn A - 1] = 0 <-> forall e, In e (map (file_ent ofZ) mat_file) -> ecol e = cn A - 1).
  { change (p.[cn A - 1] = 0 <-> forall e, In e (map (file_ent ofZ) mat_file) -> ecol e = cn A - 1). rewrite <- (mat_file_cntlt (cn A - 1)) by (unfold n; lia). pose proof mat_file_fits as HF. unfold n in HF. split.
    - intros H e He. unfold cntlt in H. apply length_zero_iff_nil in H. destruct (HF e He) as [_ Hc]. destruct (Nat.eq_dec (ecol e) (cn A - 1)) as [|Hne]; auto. exfalso.
      assert (Q : In e (filter (fun e => ecol e <? cn A - 1) (map (file_ent ofZ) mat_file))) by (apply filter_In; split; auto; lia). rewrite H in Q. destruct Q.
    - intros H. unfold cntlt. apply length_zero_iff_nil. destruct (filter _ _) as [|e l] eqn:E; auto. assert (Q : In e (e :: l)) by (left; auto). rewrite <- E in Q. apply filter_In in Q. destruct Q as [Q1 Q2]. apply H in Q1. lia. }
  rewrite I2, I3, <- I. split.
  - intros E. rewrite E. apply (holds_sorted (cm A)); auto using mat_file_fits, mat_file_sorted; [rewrite firstn_length; lia|]. intros c Hc. rewrite aget_firstn by lia. symmetry. apply mat_file_cntlt. unfold n; lia.
  - intros H. apply list_ext; [rewrite rm_p_len by lia; rewrite firstn_length; lia|]. intros c Hc. rewrite rm_p_len in Hc by lia. rewrite aget_firstn by lia. rewrite (holds_p _ _ _ _ H c) by (unfold n; lia). apply mat_file_cntlt. unfold n; lia.
Qed.

Theorem round_trip_short : (cp A).[cn A] < cnnz A -> forall sym, read_mtx zero ofZ (cm A) (cn A) (cnnz A) sym (file_toks mat_file) = Ok None.
Proof.
  intros H sym. unfold read_mtx. destruct (read_coo_short zero ofZ mat_file (cnnz A)) as (a & b & c & ->); [pose proof mat_file_len; unfold p, n in *; lia|]. reflexivity.
Qed.
End Write.
