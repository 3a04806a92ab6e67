(** Proofs about computeSchedule, part 2: all windows together. *)
From Verif Require Import Base Lib Lib2 Spec M_CC L_CC M_PostOrder L_PostOrder M_Sched L_Sched.
From Coq Require Import ZifyBool ZifyNat.

Lemma firstn_S_aget (l : list nat) i : i < length l -> firstn (S i) l = firstn i l ++ [l.[i]].
Proof.
  revert i. induction l as [|a l IH]; intros [|i] Hi; simpl in *; try lia; [reflexivity|].
  f_equal. rewrite aget_cons_S. apply IH. lia.
Qed.

(** ** Schedules built level by level *)
Section Compose.
(** [ord]: the order inside the parts is right *)
Variables (E : nat -> nat -> Prop) (ord : Prop) (W : nat -> list nat).

(** the first [m] coarse levels hold the node lists [W 0], ..., [W (m-1)] *)
Definition CInv (m : nat) (clp cpp cnp : list nat) : Prop :=
  length clp = S m /\ clp.[0] = 0 /\ (forall l, l < m -> clp.[l] <= clp.[S l]) /\
  length cpp = S clp.[m] /\ cpp.[0] = 0 /\ (forall p, p < clp.[m] -> cpp.[p] <= cpp.[S p]) /\
  cpp.[clp.[m]] = length cnp /\
  Permutation cnp (concat (map W (seq 0 m))) /\
  (forall l k, l < m -> cpp.[clp.[l]] <= k < cpp.[clp.[S l]] -> In cnp.[k] (W l)) /\
  (forall l k1 k2, l < m -> cpp.[clp.[l]] <= k1 < cpp.[clp.[S l]] -> cpp.[clp.[l]] <= k2 < cpp.[clp.[S l]] ->
     E cnp.[k1] cnp.[k2] ->
     exists p, clp.[l] <= p < clp.[S l] /\ cpp.[p] <= k1 < cpp.[S p] /\ cpp.[p] <= k2 < cpp.[S p] /\ (ord -> k1 < k2)).

Lemma CInv_init : CInv 0 [0] [0] [].
Proof. unfold CInv, aget. simpl. splits; auto; intros; lia. Qed.

Lemma CInv_mono_clp m clp cpp cnp : CInv m clp cpp cnp -> forall i j, i <= j -> j <= m -> clp.[i] <= clp.[j].
Proof. intros (_ & _ & H & _). apply (mono_le (aget clp) m). auto. Qed.

Lemma CInv_mono_cpp m clp cpp cnp : CInv m clp cpp cnp -> forall i j, i <= j -> j <= clp.[m] -> cpp.[i] <= cpp.[j].
Proof. intros (_ & _ & _ & _ & _ & H & _). apply (mono_le (aget cpp)). auto. Qed.

Lemma CInv_append m clp cpp cnp pp np :
  CInv m clp cpp cnp -> win_base (W m) pp np -> win_same E pp np -> (ord -> win_order E np) ->
  CInv (S m) (clp ++ [clp.[m] + (length pp - 1)])
       (cpp ++ map (fun v => v + length cnp) (tl pp)) (cnp ++ np).
Proof.
  intros HC (B1 & B2 & B3 & B4 & B5 & B6) HS HO.
  pose proof (CInv_mono_clp _ _ _ _ HC) as Mclp. pose proof (CInv_mono_cpp _ _ _ _ HC) as Mcpp.
  destruct HC as (C1 & C2 & C3 & C4 & C5 & C6 & C7 & C8 & C9 & C10).
  set (cm := clp.[m]) in *. set (K := length pp - 1) in *.
  set (clp' := clp ++ [cm + K]). set (cpp' := cpp ++ map (fun v => v + length cnp) (tl pp)).
  assert (LT : length (tl pp) = K) by (destruct pp; simpl in *; unfold K; lia).
  assert (G1 : forall l, l <= m -> clp'.[l] = clp.[l]) by (intros l Hl; unfold clp'; apply aget_app1; lia).
  assert (G2 : clp'.[S m] = cm + K).
  { unfold clp'. rewrite <- C1. apply aget_app_last. }
  assert (G3 : forall p, p <= cm -> cpp'.[p] = cpp.[p]) by (intros p Hp; unfold cpp'; apply aget_app1; lia).
  assert (G4 : forall q, q <= K -> cpp'.[cm + q] = pp.[q] + length cnp).
  { intros q Hq. destruct q as [|q].
    - rewrite Nat.add_0_r, G3 by lia. rewrite B2. lia.
    - unfold cpp'. rewrite aget_app2 by lia. rewrite aget_map by lia.
      replace (cm + S q - length cpp) with q by lia. rewrite aget_tl by lia. reflexivity. }
  assert (G5 : forall k, k < length cnp -> (cnp ++ np).[k] = cnp.[k]) by (intros k Hk; apply aget_app1; lia).
  assert (G6 : forall k, length cnp <= k -> (cnp ++ np).[k] = np.[k - length cnp]) by (intros k Hk; apply aget_app2; lia).
  assert (Mpp : forall i j, i <= j -> j <= K -> pp.[i] <= pp.[j]).
  { apply (mono_le (aget pp)). intros i Hi. apply B3. lia. }
  assert (Old : forall l, l < m -> clp'.[l] = clp.[l] /\ clp'.[S l] = clp.[S l] /\ clp.[l] <= clp.[S l] /\ clp.[S l] <= cm /\
      cpp'.[clp.[l]] = cpp.[clp.[l]] /\ cpp'.[clp.[S l]] = cpp.[clp.[S l]] /\ cpp.[clp.[S l]] <= length cnp).
  { intros l Hl. pose proof (Mclp l (S l) ltac:(lia) ltac:(lia)). pose proof (Mclp (S l) m ltac:(lia) ltac:(lia)).
    fold cm in H0. rewrite !G1, !G3 by lia. splits; auto. rewrite <- C7. apply Mcpp; auto. }
  assert (New : clp'.[m] = cm /\ cpp'.[clp'.[m]] = length cnp /\ cpp'.[clp'.[S m]] = length cnp + length np).
  { rewrite G1 by lia. fold cm. splits; auto.
    - rewrite G3 by lia. auto.
    - rewrite G2, G4 by lia. rewrite B4. lia. }
  destruct New as (N1 & N2 & N3).
  unfold CInv. splits.
  - unfold clp'. rewrite app_length. simpl. lia.
  - rewrite G1 by lia. auto.
  - intros l Hl. destruct (Nat.eq_dec l m) as [->|]; [lia|]. destruct (Old l ltac:(lia)) as (-> & -> & ? & _). auto.
  - unfold cpp'. rewrite app_length, map_length, LT, G2. lia.
  - rewrite G3 by lia. auto.
  - rewrite G2. intros p Hp. destruct (lt_dec p cm) as [Hlt|Hge].
    + rewrite !G3 by lia. apply C6. auto.
    + replace p with (cm + (p - cm)) by lia. replace (S (cm + (p - cm))) with (cm + S (p - cm)) by lia.
      rewrite !G4 by lia. pose proof (B3 (p - cm) ltac:(lia)). lia.
  - rewrite N3, app_length. lia.
  - rewrite seq_S, map_app, concat_app. simpl. rewrite app_nil_r. apply Permutation_app; auto.
  - intros l k Hl Hk. destruct (Nat.eq_dec l m) as [->|].
    + rewrite N2, N3 in Hk. rewrite G6 by lia. eapply Permutation_in; [exact B6|]. apply aget_In. lia.
    + destruct (Old l ltac:(lia)) as (E1 & E2 & _ & _ & E3 & E4 & E5). rewrite E1, E2, E3, E4 in Hk.
      rewrite G5 by lia. apply C9; [lia|auto].
  - intros l k1 k2 Hl H1 H2 He. destruct (Nat.eq_dec l m) as [->|].
    + rewrite N2, N3 in H1, H2. rewrite !G6 in He by lia.
      assert (Hlt : ord -> k1 < k2).
      { intros OO. pose proof (HO OO (k1 - length cnp) (k2 - length cnp) ltac:(lia) ltac:(lia) He). lia. }
      destruct (HS (k1 - length cnp) (k2 - length cnp) ltac:(lia) ltac:(lia) He) as (q & Hq & Q1 & Q2).
      exists (cm + q). rewrite N1, G2. replace (S (cm + q)) with (cm + S q) by lia. rewrite !G4 by lia.
      splits; auto; lia.
    + destruct (Old l ltac:(lia)) as (E1 & E2 & _ & E6 & E3 & E4 & E5). rewrite E1, E2, E3, E4 in H1, H2. rewrite E1, E2.
      rewrite !G5 in He by lia. destruct (C10 l k1 k2 ltac:(lia) H1 H2 He) as (p & Hp & Hp1 & Hp2 & Hp3).
      exists p. rewrite !G3 by lia. splits; auto; lia.
Qed.

(** a complete sequence of windows is a schedule *)
Lemma CInv_valid0 n m clp cpp cnp :
  CInv m clp cpp cnp -> Permutation (concat (map W (seq 0 m))) (seq 0 n) ->
  (forall u v lu lv, E u v -> lu < m -> lv < m -> In u (W lu) -> In v (W lv) -> lu <= lv) ->
  part_schedule n E m clp cpp cnp /\ (ord -> valid_schedule n E m clp cpp cnp).
Proof.
  intros HC HP HO.
  pose proof (CInv_mono_clp _ _ _ _ HC) as Mclp. pose proof (CInv_mono_cpp _ _ _ _ HC) as Mcpp.
  destruct HC as (C1 & C2 & C3 & C4 & C5 & C6 & C7 & C8 & C9 & C10).
  assert (HPn : is_perm n cnp) by (apply is_perm_Permutation; eapply Permutation_trans; eauto).
  assert (HL : length cnp = n) by apply HPn.
  assert (SW : sched_wf n m clp cpp cnp) by (unfold sched_wf; splits; auto; lia).
  assert (SC : sched_complete n cnp) by (split; [intros; now apply is_perm_lt|intros; now apply (is_perm_inj n cnp)]).
  assert (G : forall u v lu pu ku lv pv kv, E u v -> lu < m -> lv < m -> sched_at clp cpp cnp lu pu ku u ->
    sched_at clp cpp cnp lv pv kv v -> lu < lv \/ (lu = lv /\ pu = pv /\ (ord -> ku < kv))).
  { intros u v lu pu ku lv pv kv He Hlu Hlv (A1 & A2 & A3) (B1 & B2 & B3).
    pose proof (Mclp (S lu) m ltac:(lia) ltac:(lia)). pose proof (Mclp (S lv) m ltac:(lia) ltac:(lia)).
    assert (Ku : cpp.[clp.[lu]] <= ku < cpp.[clp.[S lu]]).
    { pose proof (Mcpp clp.[lu] pu ltac:(lia) ltac:(lia)). pose proof (Mcpp (S pu) clp.[S lu] ltac:(lia) ltac:(lia)). lia. }
    assert (Kv : cpp.[clp.[lv]] <= kv < cpp.[clp.[S lv]]).
    { pose proof (Mcpp clp.[lv] pv ltac:(lia) ltac:(lia)). pose proof (Mcpp (S pv) clp.[S lv] ltac:(lia) ltac:(lia)). lia. }
    pose proof (C9 lu ku Hlu Ku) as Iu. pose proof (C9 lv kv Hlv Kv) as Iv. rewrite A3 in Iu. rewrite B3 in Iv.
    pose proof (HO u v lu lv He Hlu Hlv Iu Iv) as Hle.
    destruct (Nat.eq_dec lu lv) as [<-|]; [right|left; lia].
    rewrite <- A3, <- B3 in He. destruct (C10 lu ku kv Hlu Ku Kv He) as (p & Hp & P1 & P2 & P3).
    assert (pu = p) by (apply (bucket_unique (aget cpp) clp.[m] pu p ku); auto; lia).
    assert (pv = p) by (apply (bucket_unique (aget cpp) clp.[m] pv p kv); auto; lia).
    splits; auto; lia. }
  split.
  - unfold part_schedule. splits; auto. intros u v lu pu ku lv pv kv He Hlu Hlv A B.
    destruct (G _ _ _ _ _ _ _ _ He Hlu Hlv A B) as [|(? & ? & ?)]; auto.
  - intros OO. unfold valid_schedule. splits; auto. intros u v lu pu ku lv pv kv He Hlu Hlv A B.
    destruct (G _ _ _ _ _ _ _ _ He Hlu Hlv A B) as [|(? & ? & ?)]; auto.
Qed.

End Compose.

Lemma CInv_valid E W n m clp cpp cnp :
  CInv E True W m clp cpp cnp -> Permutation (concat (map W (seq 0 m))) (seq 0 n) ->
  (forall u v lu lv, E u v -> lu < m -> lv < m -> In u (W lu) -> In v (W lv) -> lu <= lv) ->
  valid_schedule n E m clp cpp cnp.
Proof. intros. apply (CInv_valid0 E True W); auto. Qed.

Lemma append_level_wp pp clp cpp (Q : _ -> Prop) :
  0 < length pp -> 0 < length clp -> 0 < length cpp ->
  Q (clp ++ [clp.[length clp - 1] + (length pp - 1)],
     cpp ++ map (fun v => v + cpp.[length cpp - 1]) (tl pp)) ->
  wp (append_level pp clp cpp) Q.
Proof.
  intros H1 H2 H3 HQ. unfold append_level. wp1. apply wp_back; [lia|]. wp1. apply wp_back; [lia|].
  wp1. set (last := cpp.[length cpp - 1]) in *.
  apply (wp_for (fun p acc => acc = cpp ++ map (fun v => v + last) (firstn (p - 1) (tl pp)))).
  - lia.
  - simpl. now rewrite app_nil_r.
  - intros p acc Hp ->. wp1. wp1; [lia|]. apply wp_ret. rewrite <- app_assoc. f_equal.
    replace (S p - 1) with (S (p - 1)) by lia.
    assert (HL : length (tl pp) = length pp - 1) by (destruct pp; simpl in *; lia).
    rewrite (firstn_S_aget (tl pp) (p - 1)) by lia. rewrite map_app. simpl. rewrite aget_tl by lia.
    now replace (S (p - 1)) with p by lia.
  - intros acc ->. apply wp_ret.
    assert (HL : length (tl pp) = length pp - 1) by (destruct pp; simpl in *; lia).
    rewrite <- HL, firstn_all. now replace (clp.[length clp - 1] + length pp - 1) with (clp.[length clp - 1] + (length pp - 1)) by lia.
Qed.

Lemma CInv_append_level E ord W m clp cpp cnp pp (Q : _ -> Prop) :
  CInv E ord W m clp cpp cnp -> 0 < length pp ->
  (forall clp' cpp', (forall np, win_base (W m) pp np -> win_same E pp np -> (ord -> win_order E np) ->
     CInv E ord W (S m) clp' cpp' (cnp ++ np)) -> Q (clp', cpp')) ->
  wp (append_level pp clp cpp) Q.
Proof.
  intros HC Hp HQ. pose proof HC as (C1 & _ & _ & C4 & _ & _ & C7 & _).
  apply append_level_wp; try lia. apply HQ. intros np0 HB HS HO.
  rewrite C1, C4. simpl. rewrite !Nat.sub_0_r. rewrite C7. now apply CInv_append.
Qed.

(** the inverse of the post order *)
Lemma inverse_wp n po (Q : list nat -> Prop) : is_perm n po ->
  (forall inv, length inv = n -> (forall x, x < n -> inv.[x] < n) -> (forall x, x < n -> po.[inv.[x]] = x) ->
     (forall i, i < n -> inv.[po.[i]] = i) -> Q inv) ->
  wp (for_ 0 (length po) (fun i inv => x <- rd po i ;; wr inv x i) (repeat 0 n)) Q.
Proof.
  intros HP HQ. assert (HL : length po = n) by apply HP.
  apply (wp_for (fun i inv => length inv = n /\ forall j, j < i -> inv.[po.[j]] = j)).
  - lia.
  - split; [apply repeat_length|intros; lia].
  - intros i inv Hi (H1 & H2). pose proof (is_perm_lt n po i HP ltac:(lia)).
    wp1. wp1; [lia|]. wp1; [lia|]. rewrite upd_length. split; auto.
    intros j Hj. pose proof (is_perm_lt n po j HP ltac:(lia)). rewrite aget_upd by lia.
    destruct (Nat.eqb_spec po.[j] po.[i]) as [Eq|Hn].
    + apply (is_perm_inj n) in Eq; auto; lia.
    + apply H2. assert (j <> i) by congruence. lia.
  - intros inv (H1 & H2). rewrite HL in H2. apply HQ; auto.
    + intros x Hx. destruct (is_perm_pos n po x HP Hx) as (i & Hi & <-). now rewrite H2.
    + intros x Hx. destruct (is_perm_pos n po x HP Hx) as (i & Hi & <-). now rewrite H2.
Qed.

(** ** computeSchedule *)
Section All.
Variables (n k : nat) (DAG_ptr DAG_set level_ptr level_set n2l : list nat).
Notation E := (edge n DAG_ptr DAG_set).
Hypothesis W : wf_csc n DAG_ptr DAG_set.
Hypothesis LP : level_partition n k level_ptr level_set.
Hypothesis HLp : k < length level_ptr.
Hypothesis HLs : n <= length level_set.
Hypothesis HLn : n <= length n2l.
Hypothesis HN2L : forall l v, l < k -> in_level level_ptr level_set l v -> n2l.[v] = l.
Hypothesis HE : forall u v, E u v -> n2l.[u] < n2l.[v].

Lemma levels_E_acyclic : acyclic E.
Proof.
  assert (G : forall u v c, chain E u v c -> n2l.[u] + c <= n2l.[v]).
  { intros u v c Hc. induction Hc as [|u v w c Hc IH He]; [lia|]. specialize (HE v w He). lia. }
  intros u c Hc. apply G in Hc. lia.
Qed.

Variables (WM : list nat).
Hypothesis HWlen : 0 < length WM.
Hypothesis HW0 : WM.[0] = 0.
Hypothesis HWm : forall i, S i < length WM -> WM.[i] <= WM.[S i].
Hypothesis HWk : WM.[length WM - 1] = k.

Definition win (l : nat) : list nat := win_nodes level_ptr level_set WM.[l] WM.[S l].

Lemma WM_mono i j : i <= j -> j <= length WM - 1 -> WM.[i] <= WM.[j].
Proof. apply (mono_le (aget WM)). intros l Hl. apply HWm. lia. Qed.

Lemma WM_le i : i <= length WM - 1 -> WM.[i] <= k.
Proof. intros Hi. rewrite <- HWk. now apply WM_mono. Qed.

Lemma win_concat m : m <= length WM - 1 ->
  concat (map win (seq 0 m)) = slice level_set 0 level_ptr.[WM.[m]].
Proof.
  destruct LP as (P0 & Pm & Pk & Pb & Pi).
  induction m as [|m IH]; intros Hm.
  - simpl. now rewrite HW0, P0.
  - rewrite seq_S, map_app, concat_app, IH by lia. simpl. rewrite app_nil_r. unfold win, win_nodes.
    pose proof (WM_mono m (S m) ltac:(lia) ltac:(lia)). pose proof (WM_le (S m) ltac:(lia)).
    pose proof (mono_le (aget level_ptr) k Pm WM.[m] WM.[S m] ltac:(lia) ltac:(lia)).
    symmetry. apply slice_app; lia.
Qed.

Lemma win_all : Permutation (concat (map win (seq 0 (length WM - 1)))) (seq 0 n).
Proof.
  rewrite win_concat, HWk by lia. destruct LP as (P0 & Pm & Pk & Pb & Pi). rewrite Pk.
  apply is_perm_Permutation. apply is_perm_intro.
  - rewrite slice_length; lia.
  - apply NoDup_of_aget. rewrite slice_length by lia. intros i j Hi Hj. rewrite !aget_slice by lia.
    simpl. apply Pi; lia.
  - intros x Hx. apply In_slice in Hx; try lia. destruct Hx as (i & Hi & <-). apply Pb. lia.
Qed.

Lemma win_forward u v lu lv : E u v -> lu < length WM - 1 -> lv < length WM - 1 -> In u (win lu) -> In v (win lv) -> lu <= lv.
Proof.
  intros He Hu Hv Iu Iv.
  pose proof (WM_mono lu (S lu) ltac:(lia) ltac:(lia)). pose proof (WM_le (S lu) ltac:(lia)).
  pose proof (WM_mono lv (S lv) ltac:(lia) ltac:(lia)). pose proof (WM_le (S lv) ltac:(lia)).
  assert (u < n /\ v < n) as [Un Vn].
  { exact (wf_edge_lt n DAG_ptr DAG_set W u v He). }
  unfold win in Iu, Iv.
  apply (win_in n k DAG_ptr DAG_set level_ptr level_set n2l) in Iu; auto. apply (win_in n k DAG_ptr DAG_set level_ptr level_set n2l) in Iv; auto.
  pose proof (HE u v He). destruct (le_lt_dec lu lv); auto. pose proof (WM_mono (S lv) lu ltac:(lia) ltac:(lia)). lia.
Qed.

Lemma win_E_within l u v : E u v -> In u (win l) -> In v (win l) -> connected (edge_within E (win l)) u v.
Proof. intros. apply conn_edge. unfold edge_within. auto. Qed.

(** admissible chunk tables: one row per window, non-decreasing, reaching the number of
    components of the window *)
Definition chunks_ok (num_threads : nat) (Chunk_Sizes : list (list nat)) : Prop :=
  0 < num_threads /\
  forall wm, wm < length WM - 1 ->
    wm < length Chunk_Sizes /\ num_threads < length Chunk_Sizes.[wm] /\
    (forall i, 1 <= i < num_threads -> Chunk_Sizes.[wm].[i] <= Chunk_Sizes.[wm].[S i]) /\
    (forall K, n_components (edge_within E (win wm)) (win wm) K -> K <= Chunk_Sizes.[wm].[num_threads]).

Lemma computeSchedule_wp junk num_threads Chunk_Sizes serial postOrder :
  let ids_ok := serial = true -> postOrder = false -> lower_tri n DAG_ptr DAG_set in
  (postOrder = true -> diag_first n DAG_ptr DAG_set) ->
  (serial = true -> chunks_ok num_threads Chunk_Sizes) ->
  wp (computeSchedule n DAG_ptr DAG_set level_ptr level_set n2l junk num_threads WM Chunk_Sizes serial postOrder)
     (fun '(no, clp, cpp, cnp) => no = length WM - 1 /\ CInv E ids_ok win (length WM - 1) clp cpp cnp).
Proof.
  intros ids_ok HD HCh. unfold computeSchedule. wp1.
  assert (G : forall po inv, (postOrder = true -> is_perm n po /\ (forall i j, i < n -> j < n -> E po.[i] po.[j] -> i < j) /\
      length inv = n /\ (forall x, x < n -> inv.[x] < n) /\ (forall x, x < n -> po.[inv.[x]] = x) /\
      (forall i, i < n -> inv.[po.[i]] = i)) ->
    wp ('(_, clp, cpp, cnp) <- for_ 0 (length WM - 1) (fun wm st =>
    let '(buf, clp, cpp, cnp) := st in
    lb <- rd WM wm ;; ub <- rd WM (S wm) ;;
    '(pp, np) <- window_parts n DAG_ptr DAG_set level_ptr level_set n2l lb ub ;;
    if serial then
      chunk_array <- rd Chunk_Sizes wm ;;
      merged <- merge_parts num_threads chunk_array pp ;;
      '(clp', cpp') <- append_level merged clp cpp ;;
      '(buf', np') <- (if postOrder then sort_post merged po inv buf np
                       else np' <- sort_ids merged np ;; Ok (buf, np')) ;;
      Ok (buf', clp', cpp', cnp ++ np')
    else
      '(clp', cpp') <- append_level pp clp cpp ;;
      Ok (buf, clp', cpp', cnp ++ np)) (repeat 0 n, [0], [0], []) ;;
    Ok (length WM - 1, clp, cpp, cnp))
     (fun '(no, clp, cpp, cnp) => no = length WM - 1 /\ CInv E ids_ok win (length WM - 1) clp cpp cnp)).
  { intros po inv HPO. wp1.
    apply (wp_for (fun wm st => let '(buf, clp, cpp, cnp) := st in length buf = n /\ CInv E ids_ok win wm clp cpp cnp)).
    - lia.
    - split; [apply repeat_length|apply CInv_init].
    - intros wm (((buf & clp) & cpp) & cnp) Hwm (HB & HC).
      wp1. wp1; [lia|]. wp1. wp1; [lia|].
      pose proof (WM_mono wm (S wm) ltac:(lia) ltac:(lia)) as Hlu. pose proof (WM_le (S wm) ltac:(lia)) as Huk.
      wp1. apply (window_parts_wp n k DAG_ptr DAG_set level_ptr level_set n2l W LP HLp HLs HLn HN2L HE); auto.
      intros pp np B HS HO HK. change (win_nodes level_ptr level_set WM.[wm] WM.[S wm]) with (win wm) in *.
      assert (NDw : NoDup (win wm)) by (apply (win_nodup n k DAG_ptr DAG_set level_ptr level_set n2l); auto).
      assert (NBw : forall x, In x (win wm) -> x < n) by (intros x Hx; apply (win_lt n k DAG_ptr DAG_set level_ptr level_set n2l LP HLp HLs HLn HN2L HE WM.[wm] WM.[S wm]); auto).
      assert (HS' : win_same E pp np).
      { intros a b Ha Hb He. apply HS; auto. destruct B as (_ & _ & _ & _ & _ & B6).
        apply win_E_within; auto; (eapply Permutation_in; [exact B6|now apply aget_In]). }
      destruct serial.
      + destruct (HCh eq_refl) as (HT0 & HCw). destruct (HCw wm ltac:(lia)) as (W1 & W2 & W3 & W4). specialize (W4 _ HK).
        pose proof B as (B1 & B2 & B3 & B4 & B5 & B6).
        wp1. wp1; [lia|]. wp1. apply merge_parts_wp; auto.
        intros mg M1 M2 M3 M4 M5.
        assert (BM : win_base (win wm) mg np).
        { unfold win_base. rewrite M1. simpl. rewrite Nat.sub_0_r. splits; auto; try lia.
          intros q Hq. apply M3. lia. }
        assert (SM : win_same (connected (edge_within E (win wm))) mg np).
        { intros a b Ha Hb HR. destruct (HS a b Ha Hb HR) as (q & Hq & Q1 & Q2).
          destruct (M5 q Hq) as (i & Hi & Q3 & Q4). exists i. splits; lia. }
        assert (HML : mg.[length mg - 1] <= length np).
        { rewrite M1. simpl. rewrite Nat.sub_0_r. lia. }
        wp1. eapply CInv_append_level; [exact HC|lia|]. intros clp' cpp' HA. wp1.
        destruct postOrder.
        * destruct (HPO eq_refl) as (O1 & O2 & O3 & O4 & O5 & O6).
          apply (sort_post_wp n); auto; try lia.
          { rewrite B5. apply (NoDup_bounded_length n (win wm)); auto. }
          { apply O1. }
          { intros x Hx. apply NBw. eapply Permutation_in; eauto. }
          intros buf' np' HB' HR. apply wp_ret. split; auto.
          destruct (win_resort E (connected (edge_within E (win wm))) (win wm) mg np np' (aget inv) NDw BM SM) as (X1 & X2 & X3); auto.
          { intros u v; apply win_E_within. }
          intros u v He Hu Hv. apply O2; auto. rewrite !O5 by auto. exact He.
        * wp1. apply sort_ids_wp; auto; try lia. intros np' HR. wp1. apply wp_ret. split; auto.
          destruct (win_resort_same E (connected (edge_within E (win wm))) (win wm) mg np np' (fun x => x) NDw BM SM) as (X1 & X2 & X3); auto.
          { intros u v; apply win_E_within. }
          apply HA; auto. intros OO. apply X3. intros u v He _ _. exact (OO eq_refl eq_refl u v He).
      + pose proof B as (B1 & _). wp1. eapply CInv_append_level; [exact HC|lia|]. intros clp' cpp' HA.
        apply wp_ret. split; auto.
    - intros (((buf & clp) & cpp) & cnp) (HB & HC). apply wp_ret. auto. }
  destruct postOrder.
  - wp1. eapply wp_mono; [apply (computePostOrder_wp n DAG_ptr DAG_set W (HD eq_refl) levels_E_acyclic junk)|].
    intros po (PO1 & PO2). wp1. apply inverse_wp; auto. intros inv I1 I2 I3 I4. apply wp_ret.
    apply (G po inv). intros _. splits; auto.
  - apply wp_ret. apply (G (repeat 0 n) (repeat 0 n)). discriminate.
Qed.

Lemma computeSchedule_valid0 junk num_threads Chunk_Sizes serial postOrder :
  (postOrder = true -> diag_first n DAG_ptr DAG_set) ->
  (serial = true -> chunks_ok num_threads Chunk_Sizes) ->
  wp (computeSchedule n DAG_ptr DAG_set level_ptr level_set n2l junk num_threads WM Chunk_Sizes serial postOrder)
     (fun '(no, clp, cpp, cnp) => no = length WM - 1 /\ part_schedule n E no clp cpp cnp /\
        ((serial = true -> postOrder = false -> lower_tri n DAG_ptr DAG_set) -> valid_schedule n E no clp cpp cnp)).
Proof.
  intros HD HCh. eapply wp_mono; [apply computeSchedule_wp; auto|].
  intros (((no & clp) & cpp) & cnp) (-> & HC). split; auto.
  eapply CInv_valid0; [exact HC|apply win_all|apply win_forward].
Qed.

Lemma computeSchedule_valid junk num_threads Chunk_Sizes serial postOrder :
  (postOrder = true -> diag_first n DAG_ptr DAG_set) ->
  (serial = true -> postOrder = false -> lower_tri n DAG_ptr DAG_set) ->
  (serial = true -> chunks_ok num_threads Chunk_Sizes) ->
  wp (computeSchedule n DAG_ptr DAG_set level_ptr level_set n2l junk num_threads WM Chunk_Sizes serial postOrder)
     (fun '(no, clp, cpp, cnp) => no = length WM - 1 /\ valid_schedule n E no clp cpp cnp).
Proof.
  intros HD HT HCh. eapply wp_mono; [apply computeSchedule_valid0; auto|].
  intros (((no & clp) & cpp) & cnp) (-> & _ & HC). split; auto.
Qed.

End All.
