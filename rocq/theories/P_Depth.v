(** C113: compute_depth (utils/sparse_inspector.cpp 888-907). *)
From Verif Require Import Base Lib Lib2 Spec SpecMat Check M_Mat L_Mat P_Mat M_LevelSet L_LevelSet L_LevelSet2 L_LBC6 M_Depth.
From Coq Require Import ZifyBool ZifyNat.

(** the longest dependence chain that starts in [v] has [d] edges *)
Definition height_is (E : nat -> nat -> Prop) (v d : nat) : Prop :=
  (exists u, chain E v u d) /\ (forall u k, chain E v u k -> k <= d).

Lemma chain_cons (E : nat -> nat -> Prop) u v w k : E u v -> chain E v w k -> chain E u w (S k).
Proof.
  intros He Hc. induction Hc as [v|v x w k Hc IH Hx].
  - apply chain_snoc with u; auto. constructor.
  - apply chain_snoc with x; auto.
Qed.

Lemma chain_rev (E F : nat -> nat -> Prop) : (forall u v, E u v -> F v u) -> forall u v k, chain E u v k -> chain F v u k.
Proof.
  intros HE u v k Hc. induction Hc as [u|u v w k Hc IH He]; [constructor|]. apply chain_cons with v; auto.
Qed.

(** a value occurs once in a list exactly if it has a single position *)
Lemma count_once (x : nat) l : count_occ Nat.eq_dec l x = 1 <->
  exists i, (i < length l /\ l.[i] = x) /\ forall j, j < length l -> l.[j] = x -> j = i.
Proof.
  induction l as [|y l IH].
  - cbn [count_occ length]. split; [lia|]. intros (i & (Hi & _) & _). lia.
  - cbn [count_occ length]. destruct (Nat.eq_dec y x) as [->|Hne].
    + split.
      * intros HC. assert (H0 : count_occ Nat.eq_dec l x = 0) by lia. apply count_occ_not_In in H0.
        exists 0. split; [split; [lia|apply aget_cons_0]|]. intros [|j] Hj Ej; auto. rewrite aget_cons_S in Ej.
        exfalso. apply H0. rewrite <- Ej. apply aget_In. lia.
      * intros (i & (Hi & Ei) & HU). assert (i = 0) by (symmetry; apply HU; [lia|apply aget_cons_0]). subst i.
        f_equal. apply count_occ_not_In. intros Hin. apply In_aget in Hin. destruct Hin as (j & Hj & Ej).
        assert (S j = 0) by (apply HU; [lia|now rewrite aget_cons_S]). lia.
    + rewrite IH. split; intros (i & (Hi & Ei) & HU).
      * exists (S i). split; [split; [lia|now rewrite aget_cons_S]|]. intros [|j] Hj Ej.
        -- rewrite aget_cons_0 in Ej. congruence.
        -- rewrite aget_cons_S in Ej. f_equal. apply HU; auto. lia.
      * destruct i as [|i]; [rewrite aget_cons_0 in Ei; congruence|]. rewrite aget_cons_S in Ei.
        exists i. split; [split; [lia|auto]|]. intros j Hj Ej. assert (S j = S i) by (apply HU; [lia|now rewrite aget_cons_S]). lia.
Qed.

Section Transpose.
Context {V : Type} {DV : Dflt V}.

Lemma col_fst (Ap Ai : list nat) (Ax : list V) c : map fst (col Ap Ai Ax c) = map (aget Ai) (seq Ap.[c] (Ap.[S c] - Ap.[c])).
Proof. unfold col. rewrite map_map. apply map_ext. auto. Qed.

Lemma col_count (Ap Ai : list nat) (Ax : list V) c x : Ap.[c] <= Ap.[S c] ->
  (count_occ Nat.eq_dec (map fst (col Ap Ai Ax c)) x = 1 <->
   exists k, (Ap.[c] <= k < Ap.[S c] /\ Ai.[k] = x) /\ forall k', Ap.[c] <= k' < Ap.[S c] -> Ai.[k'] = x -> k' = k).
Proof.
  intros HA. rewrite count_once, col_fst. rewrite map_length, seq_length.
  assert (G : forall i, i < Ap.[S c] - Ap.[c] -> (map (aget Ai) (seq Ap.[c] (Ap.[S c] - Ap.[c]))).[i] = Ai.[Ap.[c] + i]).
  { intros i Hi. rewrite (aget_map (aget Ai)) by (rewrite seq_length; auto). now rewrite aget_seq. }
  split.
  - intros (i & (Hi & Ei) & HU). rewrite G in Ei by auto. exists (Ap.[c] + i). split; [split; [lia|auto]|].
    intros k' Hk' Ek'. assert (k' - Ap.[c] = i) by (apply HU; [lia|]; rewrite G by lia; rewrite <- Ek'; f_equal; lia). lia.
  - intros (k & (Hk & Ek) & HU). exists (k - Ap.[c]). split; [split; [lia|]|].
    + rewrite G by lia. rewrite <- Ek. f_equal. lia.
    + intros j Hj Ej. rewrite G in Ej by auto. assert (Ap.[c] + j = k) by (apply HU; auto; lia). lia.
Qed.

Lemma row_count n (cols : nat -> list (nat * V)) r c : c < n ->
  count_occ Nat.eq_dec (map fst (row_of n cols r)) c = count_occ Nat.eq_dec (map fst (cols c)) r.
Proof.
  intros Hc. unfold row_of.
  assert (F : forall d (l : list (nat * V)), count_occ Nat.eq_dec (map fst (map (fun e => (d, snd e)) (filter (fun e => fst e =? r) l))) c
     = if d =? c then count_occ Nat.eq_dec (map fst l) r else 0).
  { intros d l. induction l as [|[i v] l IH]; cbn [filter map count_occ]; [now destruct (d =? c)|]. cbn [fst].
    destruct (Nat.eqb_spec i r) as [->|Hne]; cbn [map count_occ fst].
    - rewrite IH. destruct (Nat.eq_dec r r); [|congruence]. destruct (Nat.eqb_spec d c), (Nat.eq_dec d c); congruence || reflexivity.
    - rewrite IH. destruct (Nat.eq_dec i r); [congruence|]. reflexivity. }
  assert (G : forall m a, count_occ Nat.eq_dec (map fst (flat_map (fun d => map (fun e => (d, snd e)) (filter (fun e => fst e =? r) (cols d))) (seq a m))) c
     = if (a <=? c) && (c <? a + m) then count_occ Nat.eq_dec (map fst (cols c)) r else 0).
  { induction m as [|m IH]; intros a; cbn [seq flat_map].
    - cbn [map count_occ]. destruct (Nat.leb_spec a c), (Nat.ltb_spec c (a + 0)); auto; lia.
    - rewrite map_app, count_occ_app, F, IH. destruct (Nat.eqb_spec a c) as [->|].
      + destruct (Nat.leb_spec c c), (Nat.ltb_spec c (c + S m)), (Nat.leb_spec (S c) c), (Nat.ltb_spec c (S c + m)); cbn [andb]; lia.
      + destruct (Nat.leb_spec a c), (Nat.ltb_spec c (a + S m)), (Nat.leb_spec (S a) c), (Nat.ltb_spec c (S a + m)); cbn [andb]; lia. }
  rewrite G. destruct (Nat.leb_spec 0 c), (Nat.ltb_spec c (0 + n)); cbn [andb]; auto; lia.
Qed.

Lemma col_entry (Ap Ai : list nat) (Ax : list V) c x : entry Ap Ai c x <-> In x (map fst (col Ap Ai Ax c)).
Proof.
  rewrite col_fst, in_map_iff. split.
  - intros (k & Hk & <-). exists k. split; auto. apply in_seq. lia.
  - intros (k & <- & Hk). apply in_seq in Hk. exists k. split; auto. lia.
Qed.

(** transposition turns the edges round and keeps the single diagonal entries *)
Lemma transpose_graph (A B : csc V) n : cm A = n -> cn A = n -> mat_ok A ->
  rows_exact (cpat A) n n (cp A) (ci A) (cx A) (cp B) (ci B) (cx B) -> one_diag n (cp A) (ci A) ->
  wf_csc n (cp B) (ci B) /\ one_diag n (cp B) (ci B) /\ (forall u v, edge n (cp B) (ci B) u v <-> edge n (cp A) (ci A) v u).
Proof.
  intros Hm Hn ((_ & _ & WA & _ & WA5) & _) (WB & E1 & _ & E2 & _) OD. rewrite Hm, Hn in *.
  assert (HC : forall r c, r < n -> c < n -> count_occ Nat.eq_dec (map fst (col (cp B) (ci B) (cx B) r)) c
      = count_occ Nat.eq_dec (map fst (col (cp A) (ci A) (cx A) c)) r).
  { intros r c Hr Hc. rewrite E2 by auto. now apply row_count. }
  assert (HE : forall r c, r < n -> c < n -> (entry (cp B) (ci B) r c <-> entry (cp A) (ci A) c r)).
  { intros r c Hr Hc. rewrite (col_entry _ _ (cx B)), (col_entry _ _ (cx A)). rewrite !(count_occ_In Nat.eq_dec). now rewrite HC. }
  destruct WB as (B1 & B2 & B3 & B4 & B5). split; [unfold wf_csc; auto|]. split.
  - intros u Hu. apply (col_count (cp B) (ci B) (cx B)); auto. rewrite HC by auto. apply col_count; auto.
  - intros u v. split; intros (Hu & He & Hne).
    + assert (Hv : v < n). { destruct He as (k & Hk & <-). apply B5. pose proof (mono_le (aget (cp B)) n B3 (S u) n ltac:(lia) ltac:(lia)). lia. }
      split; auto. split; auto. now apply HE.
    + assert (Hv : u < n). { destruct He as (k & Hk & <-). apply WA5. pose proof (mono_le (aget (cp A)) n WA (S v) n ltac:(lia) ltac:(lia)). lia. }
      split; auto. split; auto. now apply HE.
Qed.
End Transpose.

Lemma visits_all_rev n (E F : nat -> nat -> Prop) : (forall u v, E u v -> F v u) -> visits_all n E -> visits_all n F.
Proof.
  intros HE (path & PP & HP). pose proof PP as (P1 & P2 & P3). exists (rev path). split.
  - split; [now rewrite rev_length|]. split; [now apply NoDup_rev|]. intros x. rewrite <- in_rev. apply P3.
  - intros i Hi. assert (G : forall j, j < n -> (rev path).[j] = path.[n - 1 - j]).
    { intros j Hj. unfold aget. rewrite rev_nth by lia. f_equal. lia. }
    rewrite !G by lia. apply HE. specialize (HP (n - 1 - S i) ltac:(lia)). replace (S (n - 1 - S i)) with (n - 1 - i) in HP by lia. auto.
Qed.

(** On a square matrix with one diagonal entry per column and no cycle: every
    degrees[v] is the number of edges of the longest chain that starts in [v] -- unless one chain
    visits all the nodes; then the array is returned as it was. *)
Theorem C113_compute_depth :
  forall (V : Type) (DV : Dflt V) (A : csc V) n degrees, cm A = n -> cn A = n -> 0 < n -> mat_ok A -> one_diag n (cp A) (ci A) ->
  acyclic (edge n (cp A) (ci A)) -> n <= length degrees ->
  exists d, compute_depth A degrees = Ok d /\ length d = length degrees /\
    (visits_all n (edge n (cp A) (ci A)) -> d = degrees) /\
    (~ visits_all n (edge n (cp A) (ci A)) ->
       (forall v, v < n -> height_is (edge n (cp A) (ci A)) v d.[v]) /\ (forall i, n <= i -> i < length degrees -> d.[i] = degrees.[i])).
Proof.
  intros V DV A n degrees Hm Hn H0 MA OD AC HL. pose proof MA as ((A1 & A2 & A3 & A4 & A5) & MA2 & MA3).
  destruct (proj2 (C52_transpose_exact V DV A MA) ltac:(lia)) as (B & EB & B1 & B2 & B3 & RE). rewrite Hm, Hn in *.
  destruct (transpose_graph A B n Hm Hn MA RE OD) as (WB & OB & EE).
  destruct RE as (WM & EN & _).
  pose proof (inplace_total n (cp B) (ci B) (repeat 0 (n + 1)) (repeat 0 n) WB OB) as HT.
  rewrite !repeat_length in HT. specialize (HT ltac:(lia) ltac:(lia)). rewrite aget_repeat in HT by lia.
  destruct (HT eq_refl) as (k & ptr & lset & n2l & EL & HC). clear HT.
  pose proof (inplace_lens n (cp B) (ci B) (repeat 0 (n + 1)) (repeat 0 n)) as LL. specialize (LL _ EL). cbv beta iota in LL. rewrite !repeat_length in LL.
  destruct LL as [LL1 LL2].
  assert (NC : ~ has_cycle (edge n (cp B) (ci B))).
  { intros (u & j & Hj). apply (AC u j). apply (chain_rev (edge n (cp B) (ci B))); auto. intros x y Hxy. now apply EE. }
  unfold compute_depth, build_levelSet_CSC_alloc. rewrite EB. cbn [bind]. rewrite Hn, B2. rewrite !rd_ok by (destruct WM; lia). cbn [bind].
  rewrite EN, Nat.eqb_refl. cbn [negb]. rewrite EL. cbn [bind].
  destruct HC as [(-> & _ & HF)|(Hk & LX & HN)].
  - exists degrees. cbn. split; auto. split; auto. split; auto. intros HV. exfalso. apply HV. destruct HF as [|HF]; [tauto|].
    revert HF. apply visits_all_rev. intros x y Hxy. now apply EE.
  - destruct LX as ((P0 & Pm & Pk & Plt & Pinj) & LK & LD & _ & _).
    assert (HNV : ~ visits_all n (edge n (cp A) (ci A))).
    { intros HV. apply HN. split; auto. right. revert HV. apply visits_all_rev. intros x y Hxy. now apply EE. }
    set (K := Z.to_nat k) in *.
    assert (HB : forall l, l <= K -> ptr.[l] <= n) by (intros l Hl; rewrite <- Pk; apply (mono_le (aget ptr) K); auto).
    assert (G : wp (for_ 0 K (fun i degrees =>
        lo <- rd ptr i ;; hi <- rd ptr (S i) ;;
        for_ lo hi (fun j degrees => cn <- rd lset j ;; wr degrees cn i) degrees) degrees) (fun d => length d = length degrees /\
        (forall q, q < n -> height_is (edge n (cp A) (ci A)) lset.[q] d.[lset.[q]]) /\ (forall i, n <= i -> i < length degrees -> d.[i] = degrees.[i]))).
    { apply (wp_for (fun l d => length d = length degrees /\
        (forall q, q < ptr.[l] -> height_is (edge n (cp A) (ci A)) lset.[q] d.[lset.[q]]) /\ (forall i, n <= i -> i < length degrees -> d.[i] = degrees.[i]))); [lia| | |].
      - split; auto. split; auto. rewrite P0. intros; lia.
      - intros l d Hl (I1 & I2 & I3). pose proof (Pm l ltac:(lia)). pose proof (HB (S l) ltac:(lia)).
        wp1. wp1; [lia|]. wp1. wp1; [lia|].
        apply (wp_for (fun j d => length d = length degrees /\
          (forall q, q < j -> height_is (edge n (cp A) (ci A)) lset.[q] d.[lset.[q]]) /\ (forall i, n <= i -> i < length degrees -> d.[i] = degrees.[i]))); [lia|auto| |auto].
        intros j d2 Hj (J1 & J2 & J3). pose proof (Plt j ltac:(lia)). wp1. wp1; [lia|]. wp1; [lia|]. split; [now rewrite upd_length|]. split.
        + intros q Hq. destruct (Nat.eq_dec q j) as [->|].
          * rewrite aget_upd_eq by lia. destruct (LD l j ltac:(lia) ltac:(lia)) as [_ [(u & Hu) HD]]. split.
            -- exists u. apply (chain_rev (edge n (cp B) (ci B))); auto. intros x y Hxy. now apply EE.
            -- intros u' k' Hc. apply (HD u'). apply (chain_rev (edge n (cp A) (ci A))); auto. intros x y Hxy. now apply EE.
          * rewrite aget_upd_ne; [apply J2; lia|]. intros Eq. apply Pinj in Eq; lia.
        + intros i Hi Hi2. rewrite aget_upd_ne by lia. auto.
      - intros d HD. rewrite Pk in HD. exact HD. }
    apply wp_ok in G. destruct G as (d & ED & D1 & D2 & D3). exists d. split; auto. split; auto. split; [tauto|]. intros _. split; auto.
    intros v Hv. destruct (inj_onto n (aget lset) Plt Pinj v Hv) as (q & Hq & <-). auto.
Qed.
Print Assumptions C113_compute_depth.

(** for a bidiagonal matrix of any order nothing is computed *)
Theorem C113_single_chain_untouched :
  forall n degrees, 0 < n -> n <= length degrees ->
  compute_depth (mkCSC n n (2 * n - 1) true 0%Z (map (fun i => 2 * i) (seq 0 n) ++ [2 * n - 1])
     (map (fun k => (k + 1) / 2) (seq 0 (2 * n - 1))) (@nil nat)) degrees = Ok degrees.
Proof.
  intros n degrees H0 HL. set (Lp := map (fun i => 2 * i) (seq 0 n) ++ [2 * n - 1]). set (Li := map (fun k => (k + 1) / 2) (seq 0 (2 * n - 1))).
  assert (LP : forall i, i < n -> Lp.[i] = 2 * i).
  { intros i Hi. unfold Lp. rewrite aget_app1 by (rewrite map_length, seq_length; lia). now rewrite aget_map_seq. }
  assert (LPn : Lp.[n] = 2 * n - 1).
  { unfold Lp. replace n with (length (map (fun i => 2 * i) (seq 0 n))) at 3 by (rewrite map_length, seq_length; lia). apply aget_app_last. }
  assert (LPS : forall i, i < n -> Lp.[S i] = 2 * i + (if S i =? n then 1 else 2)).
  { intros i Hi. destruct (Nat.eqb_spec (S i) n) as [E|]; [rewrite E, LPn; lia|]. rewrite LP by lia. lia. }
  assert (LI : forall k, k < 2 * n - 1 -> Li.[k] = (k + 1) / 2) by (intros k Hk; unfold Li; now rewrite aget_map_seq).
  assert (LD : forall i, (2 * i + 1) / 2 = i) by (intros i; symmetry; apply (Nat.div_unique _ 2 i 1); lia).
  assert (LO : forall i, (2 * i + 1 + 1) / 2 = S i) by (intros i; symmetry; apply (Nat.div_unique _ 2 (S i) 0); lia).
  assert (LEN : length Lp = S n) by (unfold Lp; rewrite app_length, map_length, seq_length; cbn [length]; lia).
  assert (LEN2 : length Li = 2 * n - 1) by (unfold Li; now rewrite map_length, seq_length).
  assert (COL : forall u k, u < n -> Lp.[u] <= k < Lp.[S u] -> (k = 2 * u /\ Li.[k] = u) \/ (k = 2 * u + 1 /\ S u < n /\ Li.[k] = S u)).
  { intros u k Hu Hk. rewrite LP, LPS in Hk by auto. destruct (Nat.eqb_spec (S u) n).
    - left. assert (k = 2 * u) by lia. subst k. split; auto. rewrite LI by lia. apply LD.
    - assert (Hk2 : k = 2 * u \/ k = 2 * u + 1) by lia. destruct Hk2 as [-> | ->]; [left|right]; rewrite LI by lia.
      + split; auto.
      + split; auto. split; [lia|]. apply LO. }
  assert (ED : forall u v, edge n Lp Li u v -> v = S u /\ S u < n).
  { intros u v (Hu & (k & Hk & Ek) & Hne). destruct (COL u k Hu Hk) as [[_ E]|(_ & E & E2)]; [congruence|]. split; congruence. }
  destruct (C113_compute_depth nat _ (mkCSC n n (2 * n - 1) true 0%Z Lp Li (@nil nat)) n degrees) as (d & E1 & _ & E2 & _); auto; cbn [cm cn cp ci cnnz cpat cx].
  - unfold mat_ok. cbn [cm cn cp ci cnnz cpat cx]. split; [|split; [lia|discriminate]].
    unfold wf_mat. split; [lia|]. split; [rewrite LP by lia; lia|]. split.
    { intros i Hi. rewrite LP, LPS by auto. lia. } split; [lia|].
    intros k Hk. rewrite LI by lia. apply Nat.div_lt_upper_bound; lia.
  - intros u Hu. exists (2 * u). split.
    + split; [rewrite LP, LPS by auto; destruct (S u =? n); lia|]. rewrite LI by lia. apply LD.
    + intros k Hk Ek. destruct (COL u k Hu Hk) as [[-> _]|(_ & _ & E)]; auto. lia.
  - intros u k Hc. assert (G : forall a b j, chain (edge n Lp Li) a b j -> b = a + j).
    { intros a b j H. induction H as [|a b c j H IH He]; [lia|]. apply ED in He. lia. } apply G in Hc. lia.
  - rewrite E2 in E1; auto. exists (seq 0 n). split.
    + split; [apply seq_length|]. split; [apply seq_NoDup|]. intros x. rewrite in_seq. lia.
    + intros i Hi. rewrite !aget_seq by lia. cbn [Nat.add]. split; [lia|]. split; [|lia]. exists (2 * i + 1).
      split; [rewrite LP, LPS by lia; destruct (Nat.eqb_spec (S i) n); lia|]. rewrite LI by lia. apply LO.
Qed.
Print Assumptions C113_single_chain_untouched.

Example C113_case :
  let A := mkCSC 4 4 7 false 0%Z [0;2;4;6;7] [0;2;1;3;2;3;3] [1;1;1;1;1;1;1]%nat in
  mat_ok A /\ one_diag 4 (cp A) (ci A) /\ acyclic (edge 4 (cp A) (ci A)) /\ ~ visits_all 4 (edge 4 (cp A) (ci A)) /\
  compute_depth A [9;9;9;9] = Ok [2;1;1;0].
Proof.
  cbv zeta. cbn [cp ci].
  assert (AC : acyclic (edge 4 [0;2;4;6;7] [0;2;1;3;2;3;3])) by (apply (acyclicb_ok [0;1;2;3]); vm_compute; reflexivity).
  assert (E : forall u v, edge 4 [0;2;4;6;7] [0;2;1;3;2;3;3] u v -> (u = 0 /\ v = 2) \/ (u = 1 /\ v = 3) \/ (u = 2 /\ v = 3)).
  { intros u v (Hu & (k & Hk & Ek) & Hne). destruct u as [|[|[|[|u]]]]; [| | | |lia]; cbn in Hk;
      destruct k as [|[|[|[|[|[|[|k]]]]]]]; try lia; cbn in Ek; subst v; try lia; auto. }
  split; [|split; [|split; [auto|split]]].
  - split; [|split; [cbn; lia|cbn; lia]]. cbn [cm cn cp ci]. pose proof (wf_cscb_ok 4 [0;2;4;6;7] [0;2;1;3;2;3;3] eq_refl) as W. exact W.
  - intros u Hu. destruct u as [|[|[|[|u]]]]; [exists 0|exists 2|exists 4|exists 6|lia]; (split; [cbn; lia|]); intros k' Hk' Ek'; cbn in Hk';
      destruct k' as [|[|[|[|[|[|[|k']]]]]]]; cbn in Ek'; lia.
  - intros (path & (P1 & P2 & P3) & HP). pose proof (E _ _ (HP 0 ltac:(lia))). pose proof (E _ _ (HP 1 ltac:(lia))). pose proof (E _ _ (HP 2 ltac:(lia))). lia.
  - vm_compute. reflexivity.
Qed.
