(** Proofs about make_full, the permutation helpers, permute_general and the copies. *)
From Coq Require Import ZifyBool ZifyNat.
From Verif Require Import Base Lib Lib2 Lib3 Spec SpecMat M_Mat L_Mat L_Mat2.

Lemma flat_map_flat_map {A B C} (f : B -> list C) (g : A -> list B) l :
  flat_map f (flat_map g l) = flat_map (fun x => flat_map f (g x)) l.
Proof. induction l as [|x t IH]; simpl; auto. now rewrite flat_map_app, IH. Qed.

Lemma flat_map_map {A B C} (f : B -> list C) (g : A -> B) l : flat_map f (map g l) = flat_map (fun x => f (g x)) l.
Proof. induction l as [|x t IH]; simpl; auto. now rewrite IH. Qed.

Lemma col_facts n Ap Ai i j : wf_mat n n Ap Ai -> i < n -> Ap.[i] <= j < Ap.[S i] -> col_of n Ap j = i /\ j < Ap.[n] /\ j < length Ai /\ Ai.[j] < n.
Proof.
  intros W Hi Hj. pose proof (wf_mat_le _ _ _ _ (S i) W ltac:(lia)). pose proof W as (W1 & W2 & W3 & W4 & W5).
  splits; try lia; [apply in_col_col_of; auto; split; auto|apply W5; lia].
Qed.

Section Full.
Context {V : Type} {DV : Dflt V}.
Variables (n : nat) (Ap Ai : list nat) (Ax : list V).
Hypothesis W : wf_mat n n Ap Ai.

(** the pushes made for one stored entry: (column, (row, value)) *)
Definition ev (j : nat) : list (nat * (nat * V)) :=
  (col_of n Ap j, (Ai.[j], Ax.[j])) :: (if Ai.[j] =? col_of n Ap j then [] else [(Ai.[j], (col_of n Ap j, Ax.[j]))]).
Definition evs := flat_map ev (seq 0 Ap.[n]).
Definition ei (j : nat) : nat := length (flat_map ev (seq 0 j)).
Definition ek (e : nat) : nat := fst evs.[e].
Definition er (e : nat) : nat := fst (snd evs.[e]).
Definition ex (e : nat) : V := snd (snd evs.[e]).

Lemma ei_S j : ei (S j) = ei j + length (ev j).
Proof. unfold ei. rewrite seq_S, flat_map_app, app_length. cbn [flat_map Nat.add]. now rewrite app_nil_r. Qed.

Lemma evs_split j : j < Ap.[n] -> exists rest, evs = flat_map ev (seq 0 j) ++ ev j ++ rest.
Proof.
  intros Hj. exists (flat_map ev (seq (S j) (Ap.[n] - S j))). unfold evs.
  replace Ap.[n] with (j + S (Ap.[n] - S j)) at 1 by lia. rewrite seq_app, flat_map_app. reflexivity.
Qed.

Lemma ei_lt j : j < Ap.[n] -> ei (S j) <= length evs.
Proof.
  intros Hj. destruct (evs_split j Hj) as (r & ->). rewrite ei_S. unfold ei. rewrite !app_length. lia.
Qed.

Lemma ev_first j : j < Ap.[n] -> ek (ei j) = col_of n Ap j /\ er (ei j) = Ai.[j] /\ ex (ei j) = Ax.[j].
Proof.
  intros Hj. destruct (evs_split j Hj) as (r & E). unfold ek, er, ex. rewrite E. unfold ei.
  rewrite aget_app2 by lia. rewrite Nat.sub_diag. cbn [ev app]. rewrite aget_cons_0. auto.
Qed.

Lemma ev_second j : j < Ap.[n] -> Ai.[j] <> col_of n Ap j ->
  ek (S (ei j)) = Ai.[j] /\ er (S (ei j)) = col_of n Ap j /\ ex (S (ei j)) = Ax.[j].
Proof.
  intros Hj Hn. destruct (evs_split j Hj) as (r & E). unfold ek, er, ex. rewrite E. unfold ei.
  rewrite aget_app2 by lia. rewrite Nat.sub_succ_l, Nat.sub_diag by lia. unfold ev.
  replace (Ai.[j] =? col_of n Ap j) with false by lia. cbn [app]. rewrite aget_cons_S, aget_cons_0. auto.
Qed.

Lemma ev_length j : length (ev j) = if Ai.[j] =? col_of n Ap j then 1 else 2.
Proof. unfold ev. destruct (Ai.[j] =? col_of n Ap j); reflexivity. Qed.

Lemma evs_length : length evs <= Ap.[n] * 2.
Proof.
  change (length evs) with (ei Ap.[n]). generalize Ap.[n]. intros m. induction m as [|m IH]; [reflexivity|].
  rewrite ei_S, ev_length. destruct (Ai.[m] =? col_of n Ap m); lia.
Qed.

Lemma ek_lt e : e < length evs -> ek e < n.
Proof.
  intros He. unfold ek. pose proof (aget_In evs e He) as H. unfold evs at 2 in H. apply in_flat_map in H.
  destruct H as (j & Hj & H). apply in_seq in Hj. pose proof W as (W1 & W2 & W3 & W4 & W5).
  pose proof (col_of_in n Ap j W2 W3 ltac:(lia)) as [Hc _]. specialize (W5 j ltac:(lia)).
  unfold ev in H. destruct H as [<-|H]; [auto|]. destruct (Ai.[j] =? col_of n Ap j); [easy|]. destruct H as [<-|[]]. auto.
Qed.

Definition cinv (e : nat) (ind : list nat) : Prop :=
  length ind = n /\ forall k, k < n -> ind.[k] = cnt 0 e (fun x => ek x =? k).

Lemma cinv_step e ind : cinv e ind -> e < length evs -> cinv (S e) (upd ind (ek e) (ind.[ek e] + 1)).
Proof.
  intros [I1 I2] He. pose proof (ek_lt e He). split; [now rewrite upd_length|]. intros k Hk. rewrite cnt_S by lia.
  destruct (Nat.eq_dec (ek e) k) as [<-|Hn].
  - rewrite aget_upd_eq by lia. rewrite I2, Nat.eqb_refl by lia. reflexivity.
  - rewrite aget_upd_ne by auto. rewrite I2 by lia. replace (ek e =? k) with false by lia. simpl. lia.
Qed.

Lemma full_col_eq c : c < n -> map snd (filter (fun e => fst e =? c) evs) = full_col n (col Ap Ai Ax) c.
Proof.
  intros Hc. pose proof W as (W1 & W2 & W3 & W4 & W5). unfold evs, full_col. rewrite (seq_cols Ap n W2 W3).
  rewrite flat_map_flat_map, filter_flat_map, map_flat_map. apply flat_map_ext_in. intros i Hi. apply in_seq in Hi.
  rewrite filter_flat_map, map_flat_map. unfold col. rewrite flat_map_map. apply flat_map_ext_in. intros j Hj.
  apply in_seq in Hj. destruct (col_facts n Ap Ai i j W ltac:(lia) ltac:(lia)) as (E & _). unfold ev. rewrite E. cbn [filter fst snd].
  destruct (i =? c), (Nat.eqb_spec Ai.[j] i) as [E2|E2]; cbn [negb andb]; cbn [filter fst map snd app]; auto; destruct (Ai.[j] =? c); reflexivity.
Qed.

Lemma full_push_wp e p lb st c r v : place_inv (length evs) n ek er ex false lb e st -> e < length evs ->
  n < length p -> (forall k, k <= n -> p.[k] = cbase (length evs) ek k) ->
  c = ek e -> r = er e -> v = ex e ->
  wp (full_push p c r v st) (place_inv (length evs) n ek er ex false lb (S e)).
Proof.
  intros HI He Hp HP -> -> ->. destruct st as [[cn bi] bx].
  destruct (place_slot _ _ _ _ _ _ ek_lt _ _ _ _ _ p HI He HP) as (E1 & E2 & E3).
  pose proof HI as (I1 & I2 & I3 & I4 & _). unfold full_push.
  wp1. apply wp_rd; [lia|]. wp1. apply wp_rd; [lia|]. rewrite E1. wp1. apply wp_wr; [lia|].
  wp1. apply wp_wr; [rewrite I3; auto|]. wp1. apply wp_wr; [lia|]. cbn [wp].
  exact (place_step _ _ _ _ _ _ ek_lt _ _ _ _ _ HI He).
Qed.

End Full.

Lemma make_full_wp {V} {DV : Dflt V} (A : csc V) (Q : option (csc V) -> Prop) :
  mat_ok A -> cm A = cn A -> (cp A).[cn A] <= length (cx A) -> 0 < cn A -> cst A <> 0%Z ->
  (forall B, cm B = cn A -> cn B = cn A -> cpat B = false -> cst B = 0%Z -> wf_mat (cn A) (cn A) (cp B) (ci B) ->
     cnnz B = (cp B).[cn A] -> (cp B).[cn A] <= length (cx B) ->
     (forall c, c < cn A -> col (cp B) (ci B) (cx B) c = full_col (cn A) (col (cp A) (ci A) (cx A)) c) -> Q (Some B)) ->
  wp (make_full A) Q.
Proof.
  intros (W & HN & _) Hsq HX Hpos Hst HQ. rewrite Hsq in W. unfold make_full.
  replace (cst A =? 0)%Z with false by lia. cbv zeta.
  set (n := cn A) in *. set (Ap := cp A) in *. set (Ai := ci A) in *. set (Ax := cx A) in *.
  pose proof W as (W1 & W2 & W3 & W4 & W5).
  apply wp_bind. apply (wp_cols (fun j ind => cinv n Ap Ai Ax (ei n Ap Ai Ax j) ind)); auto.
  { split; [now rewrite repeat_length|]. intros k Hk. now rewrite aget_repeat. }
  { intros i j ind Hi Hj HI. destruct (col_facts n Ap Ai i j W Hi Hj) as (E1 & E2 & E3 & E4).
    destruct (ev_first n Ap Ai Ax j E2) as (F1 & F2 & F3). rewrite E1 in F1.
    pose proof (ei_lt n Ap Ai Ax j E2) as HE. rewrite ei_S, ev_length, E1 in HE. rewrite ei_S, ev_length, E1.
    assert (G1 := cinv_step n Ap Ai Ax W (ei n Ap Ai Ax j) ind HI). rewrite F1 in G1.
    destruct HI as [HI1 HI2]. wp1. apply wp_rd; [auto|]. wp1. apply wp_rd; [lia|]. wp1. apply wp_wr; [lia|].
    destruct (Nat.eqb_spec Ai.[j] i) as [Ei|Ei].
    - cbn [wp]. rewrite Nat.add_1_r. apply G1. lia.
    - specialize (G1 ltac:(lia)). destruct (ev_second n Ap Ai Ax j E2 ltac:(lia)) as (S1 & S2 & S3).
      assert (G2 := cinv_step n Ap Ai Ax W (S (ei n Ap Ai Ax j)) _ G1 ltac:(lia)). rewrite S1 in G2.
      wp1. apply wp_rd; [rewrite upd_length; lia|]. apply wp_wr; [rewrite upd_length; lia|].
      replace (ei n Ap Ai Ax j + 2) with (S (S (ei n Ap Ai Ax j))) by lia. exact G2. }
  intros ind [C1 C2]. set (N' := length (evs n Ap Ai Ax)). change (ei n Ap Ai Ax Ap.[n]) with N' in C2.
  unfold new_csc. cbn [cm cn cnnz cpat cst cp ci cx]. replace (0 <? n) with true by lia.
  wp1. apply wp_wr; [rewrite repeat_length; lia|]. apply wp_bind.
  apply wp_for with (I := fun i p => length p = S n /\ forall k, k <= i -> p.[k] = cbase N' (ek n Ap Ai Ax) k).
  { lia. }
  { rewrite upd_length, repeat_length. split; [lia|]. intros k Hk. replace k with 0 by lia.
    rewrite aget_upd_eq by (rewrite repeat_length; lia). now rewrite cbase_0. }
  { intros i p Hi [I1 I2]. wp1. apply wp_rd; [lia|]. wp1. apply wp_rd; [lia|]. apply wp_wr; [lia|].
    rewrite upd_length. split; auto. intros k Hk. destruct (Nat.eq_dec k (S i)) as [->|Hne].
    - rewrite aget_upd_eq by lia. rewrite I2, C2 by lia. now rewrite cbase_S.
    - rewrite aget_upd_ne by auto. apply I2. lia. }
  intros p [P1 P2]. apply wp_bind.
  apply wp_for with (I := fun i d => length d = n /\ forall k, k < i -> d.[k] = 0).
  { lia. }
  { split; auto. lia. }
  { intros i d Hi [I1 I2]. apply wp_wr; [lia|]. rewrite upd_length. split; auto. intros k Hk.
    destruct (Nat.eq_dec k i) as [->|Hne]; [now rewrite aget_upd_eq by lia|]. rewrite aget_upd_ne by auto. apply I2. lia. }
  intros d [D1 D2]. assert (Ed : d = repeat 0 n).
  { apply list_ext; [now rewrite repeat_length|]. intros k Hk. rewrite aget_repeat by lia. apply D2. lia. }
  subst d. apply wp_bind.
  apply (wp_cols (fun j st => place_inv N' n (ek n Ap Ai Ax) (er n Ap Ai Ax) (ex n Ap Ai Ax) false (cnnz A * 2) (ei n Ap Ai Ax j) st)); auto.
  { apply place_start; auto; rewrite ?repeat_length; auto; try discriminate; [now apply ek_lt|]. pose proof (evs_length n Ap Ai Ax). unfold N'. lia. }
  { intros i j st Hi Hj HI. destruct (col_facts n Ap Ai i j W Hi Hj) as (E1 & E2 & E3 & E4).
    destruct (ev_first n Ap Ai Ax j E2) as (F1 & F2 & F3). rewrite E1 in F1.
    pose proof (ei_lt n Ap Ai Ax j E2) as HE. rewrite ei_S, ev_length, E1 in HE. rewrite ei_S, ev_length, E1.
    wp1. apply wp_rd; [auto|]. wp1. apply wp_rd; [lia|]. apply wp_bind.
    assert (HE1 : ei n Ap Ai Ax j < length (evs n Ap Ai Ax)) by (destruct (Ai.[j] =? i); lia).
    eapply wp_mono; [apply (full_push_wp n Ap Ai Ax W (ei n Ap Ai Ax j) p (cnnz A * 2)); auto; lia|].
    intros st1 HI1. destruct (Nat.eqb_spec Ai.[j] i) as [Ei|Ei].
    - cbn [wp]. now rewrite Nat.add_1_r.
    - destruct (ev_second n Ap Ai Ax j E2 ltac:(lia)) as (S1 & S2 & S3).
      replace (ei n Ap Ai Ax j + 2) with (S (S (ei n Ap Ai Ax j))) by lia.
      apply (full_push_wp n Ap Ai Ax W (S (ei n Ap Ai Ax j))); auto; try lia; congruence. }
  intros [[cn' bi] bx] HI. change (ei n Ap Ai Ax Ap.[n]) with N' in HI. wp1. apply wp_rd; [lia|]. cbn [wp].
  pose proof HI as (I1 & I2 & I3 & I4 & I5 & I6 & I7 & I8).
  assert (EN : p.[n] = N') by (rewrite P2 by lia; apply cbase_all; apply ek_lt; auto).
  apply HQ; auto; cbn [cm cn cnnz cpat cst cp ci cx].
  - unfold wf_mat. splits; try lia.
    + rewrite P2 by lia. apply cbase_0.
    + intros i Hi. rewrite !P2 by lia. apply cbase_mono. lia.
    + intros k Hk. rewrite EN in Hk. destruct (cpos_onto N' (ek n Ap Ai Ax) k Hk) as (e & He & <-). rewrite I6 by auto.
      unfold er. pose proof (aget_In (evs n Ap Ai Ax) e He) as Hin. unfold evs at 2 in Hin. apply in_flat_map in Hin.
      destruct Hin as (j & Hj & Hin). apply in_seq in Hj. pose proof (col_of_in n Ap j W2 W3 ltac:(lia)) as [Hc _].
      unfold ev in Hin. destruct Hin as [<-|Hin]; [simpl; apply W5; lia|].
      destruct (Ai.[j] =? col_of n Ap j); [easy|]. destruct Hin as [<-|[]]. auto.
  - rewrite I3 by auto. lia.
  - intros c Hc. unfold col at 1. rewrite !P2 by lia. destruct (place_done _ _ _ _ _ _ _ _ _ _ c HI) as [_ G].
    rewrite G by auto. rewrite <- full_col_eq by auto.
    transitivity (map snd (filter (fun e => fst e =? c) (map (aget (evs n Ap Ai Ax)) (seq 0 N')))); [|unfold N'; now rewrite map_aget_seq].
    rewrite filter_map_comm, map_map. apply map_ext. intros e. unfold er, ex. now destruct (snd (evs n Ap Ai Ax).[e]).
Qed.

(** * Permutations *)

Lemma inv_perm_wp n perm iperm (Q : list nat -> Prop) : is_perm n perm -> n <= length iperm ->
  (forall ip, length ip = length iperm -> (forall i, i < n -> ip.[perm.[i]] = i) ->
     (forall k, n <= k -> ip.[k] = iperm.[k]) -> Q ip) ->
  wp (inv_perm n perm iperm) Q.
Proof.
  intros (P1 & P2 & P3) HL HQ. unfold inv_perm.
  apply wp_for with (I := fun i ip => length ip = length iperm /\ (forall k, k < i -> ip.[perm.[k]] = k) /\ forall k, n <= k -> ip.[k] = iperm.[k]).
  - lia.
  - splits; auto. lia.
  - intros i ip Hi (I1 & I2 & I3). wp1. apply wp_rd; [lia|].
    assert (Hx : perm.[i] < n) by (apply P3; apply aget_In; lia). apply wp_wr; [lia|]. rewrite upd_length. splits; auto.
    + intros k Hk. destruct (Nat.eq_dec k i) as [->|Hne]; [now rewrite aget_upd_eq by lia|].
      rewrite aget_upd_ne; [apply I2; lia|]. intros E. apply Hne. symmetry. eapply (NoDup_aget perm); eauto; lia.
    + intros k Hk. rewrite aget_upd_ne by lia. auto.
  - intros ip (I1 & I2 & I3). auto.
Qed.

Lemma reorder_array_wp {A} `{Dflt A} n (arr : list A) perm ws (Q : list A * list A -> Prop) :
  n <= length arr -> n <= length perm -> n <= length ws -> (forall i, i < n -> perm.[i] < length arr) ->
  (forall arr' ws', length arr' = length arr -> (forall i, i < n -> arr'.[i] = arr.[perm.[i]]) ->
     (forall i, n <= i -> arr'.[i] = arr.[i]) -> Q (arr', ws')) ->
  wp (reorder_array n arr perm ws) Q.
Proof.
  intros H1 H2 H3 H4 HQ. unfold reorder_array. apply wp_bind.
  apply wp_for with (I := fun i w => length w = length ws /\ forall k, k < i -> w.[k] = arr.[perm.[k]]).
  - lia.
  - split; auto. lia.
  - intros i w Hi [I1 I2]. wp1. apply wp_rd; [lia|]. wp1. apply wp_rd; [apply H4; lia|]. apply wp_wr; [lia|].
    rewrite upd_length. split; auto. intros k Hk. destruct (Nat.eq_dec k i) as [->|Hne]; [now rewrite aget_upd_eq by lia|].
    rewrite aget_upd_ne by auto. apply I2. lia.
  - intros w [W1 W2]. apply wp_bind.
    apply wp_for with (I := fun j a => length a = length arr /\ (forall k, k < j -> a.[k] = arr.[perm.[k]]) /\ forall k, n <= k -> a.[k] = arr.[k]).
    + lia.
    + splits; auto. lia.
    + intros j a Hj (I1 & I2 & I3). wp1. apply wp_rd; [lia|]. apply wp_wr; [lia|]. rewrite upd_length. splits; auto.
      * intros k Hk. destruct (Nat.eq_dec k j) as [->|Hne]; [rewrite aget_upd_eq by lia; apply W2; lia|].
        rewrite aget_upd_ne by auto. apply I2. lia.
      * intros k Hk. rewrite aget_upd_ne by lia. auto.
    + intros a (I1 & I2 & I3). cbn [wp]. apply HQ; auto.
Qed.
