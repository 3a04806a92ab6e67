(** Proofs about the permutation check of transpose_symmetric and the whole function. *)
From Coq Require Import ZifyBool ZifyNat.
From Verif Require Import Base Lib Lib2 Lib3 Spec SpecMat SpecSym M_Mat M_Sym P_Tree L_Mat L_Mat2 L_Mat3 L_Sym.

(** * Perm *)
Section Perm.
Variables (n : nat) (P : list Z).
Hypothesis LP : n <= length P.

Definition cbody (k : nat) (st : bool * list Z) : res (bool * list Z) :=
  let '(ok, Pinv) := st in
      if ok : bool then
        i <- rd P k ;;
        if (i <? 0)%Z || (Z.of_nat n <? i)%Z then Ok (false, Pinv)
        else v <- rdZ Pinv i ;;
             if negb (v =? -1)%Z then Ok (false, Pinv)
             else Pinv <- wrZ Pinv i (Z.of_nat k) ;; Ok (true, Pinv)
      else Ok (ok, Pinv).

(** the marks after [k] good entries *)
Definition pinv_inv (k : nat) (st : bool * list Z) : Prop :=
  let '(ok, Pinv) := st in ok = true /\ length Pinv = n /\
  (forall a, a < k -> Pinv.[Z.to_nat P.[a]] = Z.of_nat a) /\
  (forall i, i < n -> Pinv.[i] = (-1)%Z \/ exists a, a < k /\ P.[a] = Z.of_nat i).

Lemma good_distinct k a b : good_prefix n P k -> a < k -> b < k -> P.[a] = P.[b] -> a = b.
Proof.
  intros G Ha Hb E. destruct (Nat.lt_trichotomy a b) as [H|[H|H]]; auto.
  - destruct (G b Hb) as [_ G2]. now destruct (G2 a H).
  - destruct (G a Ha) as [_ G2]. now destruct (G2 b H).
Qed.

Lemma cbody_good k st : k < n -> good_prefix n P (S k) -> pinv_inv k st -> wp (cbody k st) (pinv_inv (S k)).
Proof.
  destruct st as [ok pv]. intros Hk G (-> & L & H1 & H2). cbn [cbody]. destruct (G k ltac:(lia)) as [R D].
  wp1. apply wp_rd; [lia|]. replace ((P.[k] <? 0)%Z || (Z.of_nat n <? P.[k])%Z) with false by lia.
  wp1. apply rdZ_wp; [lia|lia|].
  assert (E : pv.[Z.to_nat P.[k]] = (-1)%Z).
  { destruct (H2 (Z.to_nat P.[k]) ltac:(lia)) as [E|(a & Ha & E)]; auto. destruct (D a Ha). lia. }
  rewrite E. change (negb (-1 =? -1)%Z) with false. cbv iota. wp1. apply wrZ_wp; [lia|lia|]. cbn [wp]. unfold pinv_inv. rewrite upd_length. splits; auto.
  - intros a Ha. destruct (Nat.eq_dec a k) as [->|Hn]; [now rewrite aget_upd_eq by lia|].
    rewrite aget_upd_ne; [apply H1; lia|]. intros E'. destruct (G a ltac:(lia)) as [R2 _]. apply Hn. apply (good_distinct (S k)); auto; lia.
  - intros i Hi. destruct (Nat.eq_dec i (Z.to_nat P.[k])) as [->|Hn]; [right; exists k; split; lia|].
    rewrite aget_upd_ne by auto. destruct (H2 i Hi) as [E'|(a & Ha & E')]; auto. right. exists a. split; auto.
Qed.

Lemma cprefix k : k <= n -> good_prefix n P k -> wp (for_ 0 k cbody (true, repeat (-1)%Z n)) (pinv_inv k).
Proof.
  intros Hk G. apply wp_for with (I := pinv_inv); auto; [lia| |].
  - unfold pinv_inv. rewrite repeat_length. splits; auto; [lia|]. intros i Hi. left. now rewrite aget_repeat.
  - intros i st Hi HI. apply cbody_good; auto; [lia|]. intros a Ha. apply G. lia.
Qed.

Lemma init_pinv : for_ 0 n (fun i Pinv => wr Pinv i (-1)%Z) (repeat 0%Z n) = Ok (repeat (-1)%Z n).
Proof.
  assert (G : wp (for_ 0 n (fun i Pinv => wr Pinv i (-1)%Z) (repeat 0%Z n)) (fun s => s = repeat (-1)%Z n)).
  { apply wp_for with (I := fun i s => length s = n /\ forall k, k < i -> s.[k] = (-1)%Z).
    - lia.
    - rewrite repeat_length. split; [auto|lia].
    - intros i s Hi [I1 I2]. apply wp_wr; [lia|]. rewrite upd_length. split; auto. intros k Hk.
      destruct (Nat.eq_dec k i) as [->|Hn]; [now rewrite aget_upd_eq by lia|]. rewrite aget_upd_ne by auto. apply I2. lia.
    - intros s [I1 I2]. apply list_ext; [now rewrite repeat_length|]. intros k Hk. rewrite aget_repeat by lia. apply I2. lia. }
  destruct (for_ _ _ _ _) as [s|e]; [|easy]. simpl in G. now subst s.
Qed.

Lemma cstop pv a b : for_ a b cbody (false, pv) = Ok (false, pv).
Proof.
  destruct (Nat.le_gt_cases a b) as [H|H]; [|now rewrite for_nil by lia].
  assert (G : wp (for_ a b cbody (false, pv)) (fun s => s = (false, pv))).
  { apply wp_for with (I := fun _ s => s = (false, pv)); auto. intros i s Hi ->. reflexivity. }
  destruct (for_ a b cbody (false, pv)) as [s|e]; [|easy]. simpl in G. now subst s.
Qed.

Lemma check_perm_good : good_prefix n P n -> exists Pinv, check_perm n P = Ok (Some Pinv) /\ length Pinv = n /\
  perm_pair n (fun j => Z.to_nat P.[j]) (fun i => Z.to_nat Pinv.[i]) /\ forall j, j < n -> Pinv.[Z.to_nat P.[j]] = Z.of_nat j.
Proof.
  intros G. unfold check_perm. rewrite init_pinv. cbn [bind].
  pose proof (cprefix n ltac:(lia) G) as H. change (fun k '(ok, Pinv) => _) with cbody.
  destruct (for_ 0 n cbody (true, repeat (-1)%Z n)) as [[ok pv]|e]; [|easy]. destruct H as (-> & L & H1 & H2). cbn [bind].
  exists pv. splits; auto. split.
  - intros j Hj. destruct (G j Hj) as [R _]. split; [lia|]. rewrite H1 by auto. lia.
  - (* onto by counting *)
    assert (PS : Permutation (map (fun j => Z.to_nat P.[j]) (seq 0 n)) (seq 0 n)).
    { apply NoDup_Permutation_bis.
      - apply nodup_map_inj; [apply seq_NoDup|]. intros x y Hx Hy E. apply in_seq in Hx, Hy.
        destruct (G x ltac:(lia)) as [R1 _], (G y ltac:(lia)) as [R2 _]. apply (good_distinct n); auto; lia.
      - now rewrite map_length, !seq_length.
      - intros x Hx. apply in_map_iff in Hx. destruct Hx as (j & <- & Hj). apply in_seq in Hj. destruct (G j ltac:(lia)). apply in_seq. lia. }
    intros i Hi. assert (Hin : In i (seq 0 n)) by (apply in_seq; lia). apply (Permutation_in _ (Permutation_sym PS)) in Hin.
    apply in_map_iff in Hin. destruct Hin as (j & E & Hj). apply in_seq in Hj. rewrite <- E, H1 by lia. rewrite Nat2Z.id. split; [lia|auto].
Qed.

(** the first entry that is not a new index below [n] *)
Definition bad_at (k : nat) : Prop := k < n /\ good_prefix n P k /\ ((P.[k] < 0)%Z \/ (Z.of_nat n <= P.[k])%Z \/ exists b, b < k /\ P.[b] = P.[k]).

Lemma check_perm_bad k : bad_at k -> check_perm n P = if (P.[k] =? Z.of_nat n)%Z then Err OOB else Ok None.
Proof.
  intros (Hk & G & B). unfold check_perm. rewrite init_pinv. cbn [bind]. change (fun k '(ok, Pinv) => _) with cbody.
  rewrite (for_split _ 0 k n) by lia. pose proof (cprefix k ltac:(lia) G) as H.
  destruct (for_ 0 k cbody (true, repeat (-1)%Z n)) as [[ok pv]|e]; [|easy]. destruct H as (-> & L & H1 & H2). cbn [bind].
  rewrite for_step by lia. unfold cbody at 1. rewrite rd_ok by lia. cbn [bind].
  destruct (Z.eqb_spec P.[k] (Z.of_nat n)) as [E|E].
  - replace ((P.[k] <? 0)%Z || (Z.of_nat n <? P.[k])%Z) with false by lia. unfold rdZ. replace (P.[k] <? 0)%Z with false by lia.
    rewrite rd_oob by lia. reflexivity.
  - assert (H3 : (((P.[k] <? 0)%Z || (Z.of_nat n <? P.[k])%Z) = true) \/
       (((P.[k] <? 0)%Z || (Z.of_nat n <? P.[k])%Z) = false /\ (0 <= P.[k] < Z.of_nat n)%Z /\ exists b, b < k /\ P.[b] = P.[k])).
    { destruct B as [B|[B|B]]; [left; lia|left; lia|]. destruct ((P.[k] <? 0)%Z || (Z.of_nat n <? P.[k])%Z) eqn:E2; [auto|right; splits; auto; lia]. }
    destruct H3 as [->|(-> & R & b & Hb & Eb)]; [cbn [bind]; now rewrite cstop by lia|].
    unfold rdZ. replace (P.[k] <? 0)%Z with false by lia. rewrite rd_ok by lia. cbn [bind].
    replace pv.[Z.to_nat P.[k]] with (Z.of_nat b) by (rewrite <- Eb; symmetry; auto).
    replace (negb (Z.of_nat b =? -1)%Z) with true by lia. cbn [bind]. now rewrite cstop by lia.
Qed.

End Perm.

(** * The whole function *)

(** what the result is *)
Definition sym_result {V} {DV : Dflt V} (q qi : nat -> nat) (A F : csc V) : Prop :=
  let n := cn A in
  cm F = n /\ cn F = n /\ cnnz F = cnnz A /\ cpat F = false /\ cst F = (- cst A)%Z /\ length (ci F) = cnnz A /\ length (cx F) = cnnz A /\
  wf_mat n n (cp F) (ci F) /\ (cp F).[n] <= (cp A).[n] /\
  (forall c, c < n -> map fst (col (cp F) (ci F) (cx F) c) = map fst (sym_col (0 <? cst A)%Z n q qi (col (cp A) (ci A) (cx A)) c)) /\
  (cpat A = false -> forall c, c < n -> col (cp F) (ci F) (cx F) c = sym_col (0 <? cst A)%Z n q qi (col (cp A) (ci A) (cx A)) c) /\
  (cpat A = true -> cx F = repeat dflt (cnnz A)).

Lemma transpose_symmetric_wp {V} {DV : Dflt V} (A : csc V) Perm perm q qi (Q : option (csc V) -> Prop) :
  mat_ok A -> cm A = cn A -> 0 < cn A -> cst A <> 0%Z ->
  (match Perm with
   | None => Ok (Some None)
   | Some P => r <- check_perm (cm A) P ;; Ok (match r with None => None | Some Pinv => Some (Some (P, Pinv)) end)
   end) = Ok (Some perm) ->
  perm_pair (cn A) q qi -> (forall j, j < cn A -> old_col perm j = Ok (q j)) -> (forall i, i < cn A -> new_row perm i = Ok (qi i)) ->
  (perm = None -> forall i, i < cn A -> q i = i /\ qi i = i) ->
  (forall F, sym_result q qi A F -> Q (Some F)) -> wp (transpose_symmetric A Perm) Q.
Proof.
  intros (W & HN & HXX) Hsq Hpos Hst EP PP PO PN PI HQ. unfold transpose_symmetric. rewrite Hsq in *.
  replace ((cst A =? 0)%Z || negb (cn A =? cn A)) with false by lia. cbv zeta. rewrite EP. cbn [bind]. clear EP.
  set (n := cn A) in *. set (Ap := cp A) in *. set (Ai := ci A) in *. set (Ax := cx A) in *. set (up := (0 <? cst A)%Z) in *.
  pose proof W as (W1 & W2 & W3 & W4 & W5).
  apply wp_bind. apply (sym_count_wp n Ap Ai Ax perm up q qi W PP PO PN PI). intros w [C1 C2].
  set (N' := length (sevs n Ap Ai Ax up q qi)) in *. set (K := sk n Ap Ai Ax up q qi) in *.
  assert (KL : forall e, e < N' -> K e < n) by (intros e He; apply (sk_lt n Ap Ai Ax perm up q qi); auto).
  assert (NL : N' <= Ap.[n]) by (apply (sevs_length n Ap Ai Ax perm up q qi); auto).
  unfold new_csc. cbn [cm cn cnnz cpat cst cp ci cx]. replace (0 <? n) with true by lia.
  apply wp_bind. apply wp_for with (I := fun i '(p, c) => length p = S n /\ c = cbase N' K i /\ forall k, k < i -> p.[k] = cbase N' K k).
  { lia. }
  { rewrite repeat_length. splits; try lia. now rewrite cbase_0. }
  { intros i [p c] Hi (I1 & I2 & I3). wp1. apply wp_wr; [lia|]. wp1. apply wp_rd; [lia|]. cbn [wp]. rewrite upd_length. splits; auto.
    - rewrite I2, cbase_S, C2 by lia. reflexivity.
    - intros k Hk. destruct (Nat.eq_dec k i) as [->|Hne]; [now rewrite aget_upd_eq by lia|]. rewrite aget_upd_ne by auto. apply I3. lia. }
  intros [p0 c] (P1 & P2 & P3). wp1. apply wp_wr; [lia|].
  assert (EC : c = N') by (rewrite P2; now apply cbase_all).
  set (p := upd p0 n c). assert (LP : length p = S n) by (unfold p; now rewrite upd_length).
  assert (HP : forall k, k <= n -> p.[k] = cbase N' K k).
  { intros k Hk. unfold p. destruct (Nat.eq_dec k n) as [->|Hne]; [rewrite aget_upd_eq by lia; auto|]. rewrite aget_upd_ne by auto. apply P3. lia. }
  apply wp_bind. apply wp_for with (I := fun i w => length w = n /\ forall k, k < i -> w.[k] = p.[k]).
  { lia. }
  { split; auto. lia. }
  { intros i w1 Hi [I1 I2]. wp1. apply wp_rd; [lia|]. apply wp_wr; [lia|]. rewrite upd_length. split; auto. intros k Hk.
    destruct (Nat.eq_dec k i) as [->|Hne]; [now rewrite aget_upd_eq by lia|]. rewrite aget_upd_ne by auto. apply I2. lia. }
  intros w1 [D1 D2]. replace (cnnz A <? c) with false by lia. apply wp_bind.
  apply (sym_fill_wp n Ap Ai Ax perm up q qi W PP PO PN PI (cpat A) p w1); auto; rewrite ?repeat_length; auto.
  intros [[w2 fi] fx] (cn' & HI & _ & _ & HF). cbn [wp].
  pose proof HI as (I1 & I2 & I3 & I4 & I5 & I6 & I7 & I8). fold N' K in HI, I6, I7.
  assert (EN : p.[n] = N') by (rewrite HP by lia; now apply cbase_all).
  assert (COL : forall (X : Type) (g : nat * V -> X) c1, c1 < n -> 
     map (fun e => g (sr n Ap Ai Ax up q qi e, sx n Ap Ai Ax up q qi e)) (filter (fun j => K j =? c1) (seq 0 N')) =
     map g (sym_col up n q qi (col Ap Ai Ax) c1)).
  { intros X g c1 Hc. rewrite <- (sym_col_eq n Ap Ai Ax up q qi).
    transitivity (map g (map snd (filter (fun e => fst e =? c1) (map (aget (sevs n Ap Ai Ax up q qi)) (seq 0 N'))))); [|unfold N'; now rewrite map_aget_seq].
    rewrite filter_map_comm, !map_map. apply map_ext. intros e. unfold sr, sx. now destruct (snd (sevs n Ap Ai Ax up q qi).[e]). }
  apply HQ. unfold sym_result. fold n Ap Ai Ax up. cbn [cm cn cnnz cpat cst cp ci cx]. splits; auto.
  - destruct (cpat A); [rewrite (HF eq_refl); apply repeat_length|now rewrite I3].
  - unfold wf_mat. splits; try lia.
    + rewrite HP by lia. apply cbase_0.
    + intros i Hi. rewrite !HP by lia. apply cbase_mono. lia.
    + intros k Hk. rewrite EN in Hk. destruct (cpos_onto N' K k Hk) as (e & He & <-). rewrite I6 by auto. now apply (sr_lt n Ap Ai Ax perm up q qi).
  - lia.
  - intros c1 Hc. unfold col at 1. rewrite map_map. rewrite !HP by lia. cbn [fst].
    destruct (place_done _ _ _ _ _ _ _ _ _ _ c1 HI) as [G _]. rewrite G.
    apply (COL nat fst c1 Hc).
  - intros Hp c1 Hc. unfold col at 1. rewrite !HP by lia.
    destruct (place_done _ _ _ _ _ _ _ _ _ _ c1 HI) as [_ G]. rewrite Hp in G, HI. rewrite G by auto.
    rewrite (COL _ (fun x => x) c1 Hc). apply map_id.
Qed.
