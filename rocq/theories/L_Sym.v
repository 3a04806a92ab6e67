(** Proofs about transpose_symmetric. *)
From Coq Require Import ZifyBool ZifyNat.
From Verif Require Import Base Lib Lib2 Lib3 Spec SpecMat SpecSym M_Mat M_Sym L_Mat L_Mat2 L_Mat3.

Lemma nodup_map_inj {A B} (f : A -> B) l : NoDup l -> (forall x y, In x l -> In y l -> f x = f y -> x = y) -> NoDup (map f l).
Proof.
  induction 1 as [|a l Ha Hl IH]; intros HI; cbn [map]; [constructor|]. constructor.
  - intros H. apply in_map_iff in H. destruct H as (y & E & Hy). apply HI in E; simpl; auto. subst y. auto.
  - apply IH. intros x y Hx Hy. apply HI; simpl; auto.
Qed.

Lemma flat_map_single {A} (l : list A) : flat_map (fun p => [p]) l = l.
Proof. induction l as [|a l IH]; simpl; congruence. Qed.

(** * Events of a doubly nested loop *)
Section Events.
Context {X : Type} {DX : Dflt X}.
Variables (n : nat) (lo hi : nat -> nat) (ev : nat -> nat -> list X).

Definition evc (j : nat) : list X := flat_map (ev j) (seq (lo j) (hi j - lo j)).
Definition evs2 : list X := flat_map evc (seq 0 n).
Definition ej (j : nat) : nat := length (flat_map evc (seq 0 j)).
Definition ei2 (j p : nat) : nat := ej j + length (flat_map (ev j) (seq (lo j) (p - lo j))).

Lemma ei2_S j p : lo j <= p -> ei2 j (S p) = ei2 j p + length (ev j p).
Proof.
  intros Hp. unfold ei2. rewrite Nat.sub_succ_l by auto. rewrite seq_S, flat_map_app, app_length. cbn [flat_map].
  rewrite app_nil_r. replace (lo j + (p - lo j)) with p by lia. lia.
Qed.

Lemma ei2_lo j : ei2 j (lo j) = ej j.
Proof. unfold ei2. rewrite Nat.sub_diag. simpl. lia. Qed.

Lemma ei2_hi j : ei2 j (hi j) = ej (S j).
Proof. unfold ei2, ej at 2. rewrite seq_S, flat_map_app, app_length. cbn [flat_map Nat.add]. now rewrite app_nil_r. Qed.

Lemma ev2_at j p : j < n -> lo j <= p < hi j -> exists l1 rest, evs2 = l1 ++ ev j p ++ rest /\ length l1 = ei2 j p.
Proof.
  intros Hj Hp. unfold evs2. replace n with (j + S (n - S j)) by lia. rewrite seq_app, flat_map_app. cbn [seq flat_map Nat.add].
  unfold evc at 2. replace (hi j - lo j) with ((p - lo j) + S (hi j - S p)) by lia. rewrite seq_app, flat_map_app. cbn [seq flat_map].
  replace (lo j + (p - lo j)) with p by lia.
  exists (flat_map evc (seq 0 j) ++ flat_map (ev j) (seq (lo j) (p - lo j))). eexists. split.
  - rewrite <- !app_assoc. reflexivity.
  - rewrite app_length. reflexivity.
Qed.

Lemma ev2_one j p x : j < n -> lo j <= p < hi j -> ev j p = [x] -> ei2 j p < length evs2 /\ evs2.[ei2 j p] = x.
Proof.
  intros Hj Hp E. destruct (ev2_at j p Hj Hp) as (l1 & r & E1 & E2). rewrite E in E1. rewrite E1, <- E2.
  split; [rewrite !app_length; simpl; lia|]. rewrite aget_app2 by lia. rewrite Nat.sub_diag. reflexivity.
Qed.

(** a doubly nested loop over the events *)
Lemma wp_ev2 {T} (I : nat -> T -> Prop) (body : nat -> nat -> nat -> T -> res T) (pre : nat -> res nat) (q : nat -> nat) (Ap : list nat) s (Q : T -> Prop) :
  (forall j, j < n -> pre j = Ok (q j) /\ S (q j) < length Ap /\ lo j = Ap.[q j] /\ hi j = Ap.[S (q j)] /\ lo j <= hi j) ->
  I 0 s ->
  (forall j p s, j < n -> lo j <= p < hi j -> I (ei2 j p) s -> wp (body j (q j) p s) (I (ei2 j (S p)))) ->
  (forall s, I (length evs2) s -> Q s) ->
  wp (for_ 0 n (fun j s => jold <- pre j ;; a <- rd Ap jold ;; b <- rd Ap (S jold) ;; for_ a b (body j jold) s) s) Q.
Proof.
  intros HP HI HB HQ. apply wp_for with (I := fun j s => I (ej j) s); auto; [lia|].
  intros j s1 Hj HI1. destruct (HP j ltac:(lia)) as (E1 & E2 & E3 & E4 & E5). rewrite E1. cbn [bind].
  wp1. apply wp_rd; [lia|]. wp1. apply wp_rd; [lia|]. rewrite <- E3, <- E4.
  apply wp_for with (I := fun p s => I (ei2 j p) s); auto.
  - now rewrite ei2_lo.
  - intros p s2 Hp HI2. apply HB; auto; lia.
  - intros s2 HI2. now rewrite <- ei2_hi.
Qed.
End Events.

(** * The four loops *)
Section Sym.
Context {V : Type} {DV : Dflt V}.
Variables (n : nat) (Ap Ai : list nat) (Ax : list V) (perm : option (list Z * list Z)) (upper : bool) (q qi : nat -> nat).
Hypothesis W : wf_mat n n Ap Ai.
Hypothesis PP : perm_pair n q qi.
Hypothesis PO : forall j, j < n -> old_col perm j = Ok (q j).
Hypothesis PN : forall i, i < n -> new_row perm i = Ok (qi i).
Hypothesis PI : perm = None -> forall i, i < n -> q i = i /\ qi i = i.

Definition slo (j : nat) : nat := Ap.[q j].
Definition shi (j : nat) : nat := Ap.[S (q j)].
Definition skey (j p : nat) : nat := if upper then Nat.min (qi Ai.[p]) j else Nat.max (qi Ai.[p]) j.
Definition srow (j p : nat) : nat := if upper then Nat.max (qi Ai.[p]) j else Nat.min (qi Ai.[p]) j.
Definition sev (j p : nat) : list (nat * (nat * V)) :=
  if in_tri upper Ai.[p] (q j) then [(skey j p, (srow j p, Ax.[p]))] else [].
Definition sevs := evs2 n slo shi sev.
Definition sk (e : nat) : nat := fst sevs.[e].
Definition sr (e : nat) : nat := fst (snd sevs.[e]).
Definition sx (e : nat) : V := snd (snd sevs.[e]).
Notation sei := (ei2 slo shi sev).

Lemma s_facts j p : j < n -> slo j <= p < shi j -> p < Ap.[n] /\ p < length Ai /\ Ai.[p] < n /\ qi Ai.[p] < n.
Proof.
  intros Hj Hp. destruct PP as [P1 P2]. destruct (P1 j Hj) as [Q1 Q2]. unfold slo, shi in Hp.
  destruct (col_facts n Ap Ai (q j) p W Q1 Hp) as (E1 & E2 & E3 & E4). splits; auto. now apply P2.
Qed.

Lemma s_pre j : j < n -> old_col perm j = Ok (q j) /\ S (q j) < length Ap /\ slo j = Ap.[q j] /\ shi j = Ap.[S (q j)] /\ slo j <= shi j.
Proof.
  intros Hj. destruct PP as [P1 P2]. destruct (P1 j Hj) as [Q1 Q2]. pose proof W as (W1 & W2 & W3 & W4 & W5).
  unfold slo, shi. splits; auto. lia.
Qed.

Lemma sevs_In x : In x sevs -> exists j p, j < n /\ slo j <= p < shi j /\ in_tri upper Ai.[p] (q j) = true /\ x = (skey j p, (srow j p, Ax.[p])).
Proof.
  intros H. unfold sevs, evs2 in H. apply in_flat_map in H. destruct H as (j & Hj & H). apply in_seq in Hj.
  unfold evc in H. apply in_flat_map in H. destruct H as (p & Hp & H). apply in_seq in Hp. unfold sev in H.
  destruct (in_tri upper Ai.[p] (q j)) eqn:E; [|easy]. destruct H as [<-|[]]. exists j, p. splits; auto; lia.
Qed.

Lemma s_at e : e < length sevs -> exists j p, j < n /\ slo j <= p < shi j /\ in_tri upper Ai.[p] (q j) = true /\
  sk e = skey j p /\ sr e = srow j p /\ sx e = Ax.[p].
Proof.
  intros He. destruct (sevs_In sevs.[e] (aget_In _ _ He)) as (j & p & H1 & H2 & H3 & H4).
  exists j, p. do 3 (split; [auto|]). unfold sk, sr, sx. rewrite H4. auto.
Qed.

Lemma sk_lt e : e < length sevs -> sk e < n.
Proof.
  intros He. destruct (s_at e He) as (j & p & H1 & H2 & _ & -> & _). destruct (s_facts j p H1 H2) as (_ & _ & _ & H3).
  unfold skey. destruct upper; lia.
Qed.

Lemma sr_lt e : e < length sevs -> sr e < n.
Proof.
  intros He. destruct (s_at e He) as (j & p & H1 & H2 & _ & _ & -> & _). destruct (s_facts j p H1 H2) as (_ & _ & _ & H3).
  unfold srow. destruct upper; lia.
Qed.

(** the number of events is at most the number of entries *)
Lemma perm_seq : Permutation (map q (seq 0 n)) (seq 0 n).
Proof.
  destruct PP as [P1 P2]. apply NoDup_Permutation_bis.
  - apply nodup_map_inj; [apply seq_NoDup|]. intros i j Hi Hj E. apply in_seq in Hi, Hj. rewrite <- (proj2 (P1 i ltac:(lia))), <- (proj2 (P1 j ltac:(lia))). now rewrite E.
  - now rewrite map_length, !seq_length.
  - intros x Hx. apply in_map_iff in Hx. destruct Hx as (j & <- & Hj). apply in_seq in Hj. apply in_seq. specialize (P1 j ltac:(lia)). lia.
Qed.

Lemma flat_map_le {A B C} (f : A -> list B) (g : A -> list C) l : (forall a, In a l -> length (f a) <= length (g a)) -> length (flat_map f l) <= length (flat_map g l).
Proof.
  induction l as [|a l IH]; intros H; cbn [flat_map]; [auto|]. rewrite !app_length. pose proof (H a (or_introl eq_refl)).
  specialize (IH (fun b Hb => H b (or_intror Hb))). lia.
Qed.

Lemma sevs_length : length sevs <= Ap.[n].
Proof.
  pose proof W as (W1 & W2 & W3 & W4 & W5).
  transitivity (length (flat_map (fun c => seq Ap.[c] (Ap.[S c] - Ap.[c])) (map q (seq 0 n)))).
  - unfold sevs, evs2. rewrite flat_map_map. apply flat_map_le. intros j Hj. unfold evc, slo, shi.
    transitivity (length (flat_map (fun p => [p]) (seq Ap.[q j] (Ap.[S (q j)] - Ap.[q j])))).
    + apply flat_map_le. intros p Hp. unfold sev. destruct (in_tri upper Ai.[p] (q j)); simpl; lia.
    + rewrite flat_map_single. auto.
  - rewrite (Permutation_length (Permutation_flat_map _ perm_seq)). rewrite <- (seq_cols Ap n W2 W3), seq_length. lia.
Qed.

Definition scinv (e : nat) (w : list nat) : Prop := length w = n /\ forall k, k < n -> w.[k] = cnt 0 e (fun x => sk x =? k).

Lemma scinv_step e w : scinv e w -> e < length sevs -> scinv (S e) (upd w (sk e) (w.[sk e] + 1)).
Proof.
  intros [I1 I2] He. pose proof (sk_lt e He). split; [now rewrite upd_length|]. intros k Hk. rewrite cnt_S by lia.
  destruct (Nat.eq_dec (sk e) k) as [<-|Hn].
  - rewrite aget_upd_eq by lia. rewrite I2, Nat.eqb_refl by lia. reflexivity.
  - rewrite aget_upd_ne by auto. rewrite I2 by lia. replace (sk e =? k) with false by lia. simpl. lia.
Qed.

Lemma s_one j p : j < n -> slo j <= p < shi j -> in_tri upper Ai.[p] (q j) = true ->
  sei j p < length sevs /\ sei j (S p) = S (sei j p) /\ sk (sei j p) = skey j p /\ sr (sei j p) = srow j p /\ sx (sei j p) = Ax.[p].
Proof.
  intros Hj Hp E. assert (E' : sev j p = [(skey j p, (srow j p, Ax.[p]))]) by (unfold sev; now rewrite E).
  destruct (ev2_one n slo shi sev j p _ Hj Hp E') as [H1 H2]. split; [exact H1|].
  split; [rewrite ei2_S by lia; rewrite E'; simpl; lia|]. unfold sk, sr, sx, sevs. rewrite H2. auto.
Qed.

Lemma s_zero j p : slo j <= p -> in_tri upper Ai.[p] (q j) = false -> sei j (S p) = sei j p.
Proof. intros Hp E. rewrite ei2_S by lia. unfold sev. rewrite E. simpl. lia. Qed.

(** without a permutation the smaller/larger index is known *)
Lemma s_none j p : perm = None -> j < n -> slo j <= p < shi j -> in_tri upper Ai.[p] (q j) = true -> skey j p = qi Ai.[p] /\ srow j p = j.
Proof.
  intros EN Hj Hp E. destruct (s_facts j p Hj Hp) as (_ & _ & H3 & H4). destruct (PI EN j Hj) as [Q1 _]. destruct (PI EN Ai.[p] H3) as [_ Q2].
  unfold skey, srow, in_tri in *. destruct upper; lia.
Qed.

Lemma sym_count_wp (Q : list nat -> Prop) : (forall w, scinv (length sevs) w -> Q w) -> wp (sym_count perm upper n Ap Ai (repeat 0 n)) Q.
Proof.
  intros HQ. unfold sym_count.
  apply (wp_ev2 n slo shi sev scinv (fun j jold p W => iold <- rd Ai p ;; if in_tri upper iold jold then
        i <- new_row perm iold ;;
        let k := match perm with None => i | Some _ => if upper then Nat.min i j else Nat.max i j end in
        c <- rd W k ;; wr W k (c + 1) else Ok W) (old_col perm) q Ap); auto.
  - apply s_pre.
  - split; [now rewrite repeat_length|]. intros k Hk. now rewrite aget_repeat.
  - intros j p w Hj Hp HI. destruct (s_facts j p Hj Hp) as (F1 & F2 & F3 & F4). destruct (s_pre j Hj) as (E1 & _). rewrite PO in E1 by auto.
    wp1. apply wp_rd; [auto|].
    destruct (in_tri upper Ai.[p] (q j)) eqn:ET.
    + destruct (s_one j p Hj Hp ET) as (S1 & S2 & S3 & S4 & S5). rewrite PN by auto. cbn [bind].
      replace (match perm with Some _ => if upper then Nat.min (qi Ai.[p]) j else Nat.max (qi Ai.[p]) j | None => qi Ai.[p] end) with (sk (sei j p)).
      2:{ rewrite S3. assert (HN := fun E => s_none j p E Hj Hp ET). destruct perm as [pp|]; [reflexivity|]. now destruct (HN eq_refl). }
      pose proof (sk_lt _ S1). pose proof HI as [I1 I2]. wp1. apply wp_rd; [lia|]. apply wp_wr; [lia|]. rewrite S2. now apply scinv_step.
    + cbn [wp]. now rewrite s_zero by (auto; lia).
Qed.

(** placement: the cursors are the start of the column plus the number of entries placed *)
Definition splace (pat : bool) (Fp : list nat) (lb e : nat) (fx0 : list V) (st : list nat * list nat * list V) : Prop :=
  let '(w, fi, fx) := st in
  exists cn, place_inv (length sevs) n sk sr sx pat lb e (cn, fi, if pat then [] else fx) /\ length w = n /\
    (forall k, k < n -> w.[k] = Fp.[k] + cn.[k]) /\ (pat = true -> fx = fx0).

Lemma sym_fill_wp pat Fp w fi (fx : list V) (Q : list nat * list nat * list V -> Prop) :
  (pat = false -> Ap.[n] <= length Ax) -> Ap.[n] <= length fi -> (pat = false -> length fx = length fi) ->
  length w = n -> (forall k, k <= n -> Fp.[k] = cbase (length sevs) sk k) -> (forall k, k < n -> w.[k] = Fp.[k]) ->
  (forall st, splace pat Fp (length fi) (length sevs) fx st -> Q st) ->
  wp (sym_fill pat perm upper n Ap Ai Ax (w, fi, fx)) Q.
Proof.
  intros HX Hfi Hfx Hw HF HW HQ. unfold sym_fill.
  apply (wp_ev2 n slo shi sev (fun e => splace pat Fp (length fi) e fx) (fun j jold p st => iold <- rd Ai p ;; if in_tri upper iold jold then
        i <- new_row perm iold ;;
        sym_place pat (match perm with None => false | Some _ => true end) upper (rd Ax p) i j st
      else Ok st) (old_col perm) q Ap); auto.
  - apply s_pre.
  - exists (repeat 0 n). pose proof sevs_length. splits; auto.
    + apply place_start; destruct pat; auto; try discriminate; try lia; apply sk_lt.
    + intros k Hk. rewrite aget_repeat by auto. rewrite HW by auto. lia.
  - intros j p [[w1 fi1] fx1] Hj Hp HI. destruct (s_facts j p Hj Hp) as (F1 & F2 & F3 & F4).
    wp1. apply wp_rd; [auto|].
    destruct (in_tri upper Ai.[p] (q j)) eqn:ET; [|cbn [wp]; now rewrite s_zero by (auto; lia)].
    destruct (s_one j p Hj Hp ET) as (S1 & S2 & S3 & S4 & S5). rewrite PN by auto. cbn [bind]. unfold sym_place.
    set (fst0 := if match perm with Some _ => true | None => false end then (if upper then qi Ai.[p] <? j else j <? qi Ai.[p]) else true).
    assert (HK : (if fst0 then qi Ai.[p] else j) = sk (sei j p) /\ (if fst0 then j else qi Ai.[p]) = sr (sei j p)).
    { rewrite S3, S4. assert (HN := fun E => s_none j p E Hj Hp ET). unfold fst0. destruct perm as [pp|].
      - unfold skey, srow. destruct upper; [destruct (Nat.ltb_spec (qi Ai.[p]) j)|destruct (Nat.ltb_spec j (qi Ai.[p]))]; lia.
      - destruct (HN eq_refl). auto. }
    destruct HK as [-> ->]. rewrite S2. set (e := sei j p) in *.
    destruct HI as (cn & HI & L1 & L2 & L3).
    destruct (place_slot _ _ _ _ _ _ sk_lt _ _ _ _ _ Fp HI S1 HF) as (E1 & E2 & E3).
    pose proof HI as (I1 & I2 & I3 & I4 & _).
    wp1. apply wp_rd; [lia|]. rewrite (L2 (sk e)) by auto. wp1. apply wp_wr; [lia|]. rewrite E1. wp1. apply wp_wr; [lia|].
    assert (G := place_step _ _ _ _ _ _ sk_lt _ _ _ _ _ HI S1). rewrite S5 in G.
    assert (HW' : forall k, k < n -> (upd w1 (sk e) (cpos (length sevs) sk e + 1)).[k] = Fp.[k] + (upd cn (sk e) (cn.[sk e] + 1)).[k]).
    { intros k Hk. destruct (Nat.eq_dec (sk e) k) as [<-|Hne]; [rewrite !aget_upd_eq by lia; lia|]. rewrite !aget_upd_ne by auto. auto. }
    destruct pat.
    + cbn [bind]. cbn [wp]. exists (upd cn (sk e) (cn.[sk e] + 1)). rewrite upd_length. splits; auto.
    + wp1. wp1. apply wp_rd; [specialize (HX eq_refl); lia|]. apply wp_wr; [rewrite I3; auto|]. cbn [wp].
      exists (upd cn (sk e) (cn.[sk e] + 1)). rewrite upd_length. splits; auto. discriminate.
Qed.

(** the columns of the result *)
Lemma sym_col_eq c : map snd (filter (fun e => fst e =? c) sevs) = sym_col upper n q qi (col Ap Ai Ax) c.
Proof.
  unfold sevs, evs2, sym_col. rewrite filter_flat_map, map_flat_map. apply flat_map_ext_in. intros j Hj. apply in_seq in Hj.
  unfold evc. rewrite filter_flat_map, map_flat_map. unfold col, slo, shi. rewrite flat_map_map. apply flat_map_ext_in. intros p Hp.
  unfold sev, in_tri, skey, srow. cbn [fst snd]. destruct (if upper then Ai.[p] <=? q j else q j <=? Ai.[p]); [|reflexivity].
  cbn [filter fst]. destruct ((if upper then Nat.min (qi Ai.[p]) j else Nat.max (qi Ai.[p]) j) =? c); reflexivity.
Qed.

End Sym.
