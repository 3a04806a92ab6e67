(** Proofs about read_mtx. *)
From Coq Require Import ZifyBool ZifyNat.
From Verif Require Import Base Lib Lib2 M_Mat M_IO SpecIO L_Util.

(** consecutive writes *)
Fixpoint wrs {A} (l : list A) (i : nat) (vs : list A) : list A := match vs with [] => l | v :: t => wrs (upd l i v) (S i) t end.

Lemma wrs_length {A} (vs : list A) : forall l i, length (wrs l i vs) = length l.
Proof. induction vs as [|v t IH]; intros l i; cbn [wrs]; auto. now rewrite IH, upd_length. Qed.

Lemma aget_wrs_out {A} `{Dflt A} (vs : list A) : forall l i k, k < i \/ i + length vs <= k -> (wrs l i vs).[k] = l.[k].
Proof. induction vs as [|v t IH]; intros l i k Hk; cbn [wrs length] in *; auto. rewrite IH by lia. now rewrite aget_upd_ne by lia. Qed.

Lemma aget_wrs_in {A} `{Dflt A} (vs : list A) : forall l i k, k < length vs -> i + length vs <= length l -> (wrs l i vs).[i + k] = vs.[k].
Proof.
  induction vs as [|v t IH]; intros l i k Hk Hl; cbn [wrs length] in *; [lia|]. destruct k as [|k].
  - rewrite aget_wrs_out by lia. rewrite Nat.add_0_r, aget_upd_eq by lia. reflexivity.
  - replace (i + S k) with (S i + k) by lia. rewrite IH by (try rewrite upd_length; lia). reflexivity.
Qed.

Lemma wrs_all {A} `{Dflt A} (l vs : list A) : length l = length vs -> wrs l 0 vs = vs.
Proof. intros E. apply list_ext; [now rewrite wrs_length|]. intros k Hk. rewrite wrs_length in Hk. apply (aget_wrs_in vs l 0 k); lia. Qed.

Section Read.
Context {V : Type} {DV : Dflt V}.
Variables (zero : V) (ofZ : Z -> V).

(** the literals of an entry; the value may be written as an integer *)
Definition ent_toks (e : nat * nat * tok (V := V)) : list (tok (V := V)) :=
  let '(r, c, t) := e in [TInt (Z.of_nat r + 1); TInt (Z.of_nat c + 1); t].
Definition file_toks (fs : list (nat * nat * tok (V := V))) : list tok := flat_map ent_toks fs.
Definition file_ent (e : nat * nat * tok (V := V)) : ent V := let '(r, c, t) := e in (r, c, tval ofZ t).

Definition zrow (e : nat * nat * tok (V := V)) : Z := Z.of_nat (fst (fst e)).
Definition zcol (e : nat * nat * tok (V := V)) : Z := Z.of_nat (snd (fst e)).
Definition fval (e : nat * nat * tok (V := V)) : V := tval ofZ (snd e).

Definition coo_body : nat -> bool * list Z * list Z * list V * list tok -> res (bool * (bool * list Z * list Z * list V * list tok)) :=
  (fun k '(_, Ri, J, X, toks) =>
      o <- fscanf3 ofZ toks ;;
      match o with
      | None => Ok (true, (true, Ri, J, X, toks))
      | Some (a, b, v, toks) =>
          Ri <- wr Ri k a ;;
          J <- match b with Some b => wr J k b | None => Ok J end ;;
          X <- match v with Some v => wr X k v | None => Ok X end ;;
          a <- rd Ri k ;; Ri <- wr Ri k (a - 1)%Z ;;
          b <- rd J k ;; J <- wr J k (b - 1)%Z ;;
          Ok (false, (false, Ri, J, X, toks))
      end).

Lemma coo_loop fs : forall k i eof Ri J X rest, i + length fs <= length Ri -> i + length fs <= length J -> i + length fs <= length X ->
  forb_n (length fs + k) i coo_body (eof, Ri, J, X, file_toks fs ++ rest) =
  forb_n k (i + length fs) coo_body ((if length fs =? 0 then eof else false), wrs Ri i (map zrow fs), wrs J i (map zcol fs), wrs X i (map fval fs), rest).
Proof.
  induction fs as [|[[r c] t] fs IH]; intros k i eof Ri J X rest H1 H2 H3; [simpl; now rewrite Nat.add_0_r|].
  cbn [length] in *. cbn [Nat.add forb_n file_toks flat_map ent_toks app]. unfold coo_body at 1. cbn [fscanf3 tint bind].
  rewrite !wr_ok by lia. cbn [bind]. rewrite rd_ok by (rewrite upd_length; lia). rewrite aget_upd_eq by lia. cbn [bind].
  rewrite wr_ok by (rewrite upd_length; lia). cbn [bind]. rewrite rd_ok by (rewrite upd_length; lia). rewrite aget_upd_eq by lia. cbn [bind].
  rewrite wr_ok by (rewrite upd_length; lia). cbn [bind fst snd]. rewrite !upd_upd'. change (flat_map ent_toks fs) with (file_toks fs).
  replace (Z.of_nat r + 1 - 1)%Z with (Z.of_nat r) by lia. replace (Z.of_nat c + 1 - 1)%Z with (Z.of_nat c) by lia.
  rewrite IH by (rewrite upd_length; lia). cbn [map wrs zrow zcol fval fst snd Nat.eqb]. replace (i + S (length fs)) with (S i + length fs) by lia.
  f_equal. f_equal. f_equal. f_equal. f_equal. destruct (length fs =? 0); auto.
Qed.

Lemma read_coo_ok fs rest : read_coo zero ofZ (length fs) (file_toks fs ++ rest) = Ok (false, map zrow fs, map zcol fs, map fval fs).
Proof.
  unfold read_coo, forb_. fold coo_body. replace (length fs - 0) with (length fs + 0) by lia. rewrite coo_loop by (rewrite repeat_length; lia).
  cbn [forb_n bind]. rewrite !wrs_all by (rewrite repeat_length, map_length; auto). destruct (length fs =? 0); reflexivity.
Qed.

(** the file ends after fewer entries than announced *)
Lemma read_coo_short fs nnz : length fs < nnz -> exists a b c, read_coo zero ofZ nnz (file_toks fs) = Ok (true, a, b, c).
Proof.
  intros H. unfold read_coo, forb_. fold coo_body. replace (nnz - 0) with (length fs + S (nnz - S (length fs))) by lia. rewrite <- (app_nil_r (file_toks fs)).
  rewrite coo_loop by (rewrite repeat_length; lia). cbn [forb_n]. unfold coo_body at 1. cbn [fscanf3 bind fst snd]. eauto.
Qed.

(** too few literals: three are taken for every entry *)
Lemma coo_pattern : forall k i eof Ri J X (l : list Z), i + k <= length Ri -> i + k <= length J -> i + k <= length X -> length l + 3 <= 3 * k ->
  exists s, forb_n k i coo_body (eof, Ri, J, X, map TInt l) = Ok s /\ fst (fst (fst (fst s))) = true.
Proof.
  induction k as [|k IH]; intros i eof Ri J X l H1 H2 H3 HL; [lia|]. cbn [forb_n].
  destruct l as [|a [|b [|c l]]]; cbn [map length] in *; unfold coo_body at 1; cbn [fscanf3 tint bind].
  - cbn [fst snd]. eexists. split; [reflexivity|]. reflexivity.
  - rewrite !wr_ok by lia. cbn [bind]. rewrite rd_ok by (rewrite upd_length; lia). cbn [bind]. rewrite wr_ok by (rewrite upd_length; lia). cbn [bind].
    rewrite rd_ok by lia. cbn [bind]. rewrite wr_ok by lia. cbn [bind fst snd]. apply (IH (S i) _ _ _ _ []); rewrite ?upd_length; simpl; lia.
  - rewrite !wr_ok by lia. cbn [bind]. rewrite rd_ok by (rewrite upd_length; lia). cbn [bind]. rewrite wr_ok by (rewrite upd_length; lia). cbn [bind].
    rewrite rd_ok by (rewrite upd_length; lia). cbn [bind]. rewrite wr_ok by (rewrite upd_length; lia). cbn [bind fst snd]. apply (IH (S i) _ _ _ _ []); rewrite ?upd_length; simpl; lia.
  - rewrite !wr_ok by lia. cbn [bind]. rewrite rd_ok by (rewrite upd_length; lia). cbn [bind]. rewrite wr_ok by (rewrite upd_length; lia). cbn [bind].
    rewrite rd_ok by (rewrite upd_length; lia). cbn [bind]. rewrite wr_ok by (rewrite upd_length; lia). cbn [bind fst snd]. apply (IH (S i) _ _ _ _ l); rewrite ?upd_length; lia.
Qed.
End Read.

(** * Runs *)

Section Runs.
Variables (nnz : nat) (J : list Z).
Hypothesis LJ : length J = nnz.

Definition bnd (k : nat) : bool := (k =? 0) || negb (J.[k] =? J.[k - 1])%Z.
Definition bl (i : nat) : list nat := filter bnd (seq i (nnz - i)).

Lemma run_end_ok i : i < nnz -> exists e, run_end nnz J i = Ok e /\ i <= e /\ e < nnz /\ (forall k, i < k -> k <= e -> J.[k] = J.[i]) /\ (S e < nnz -> J.[S e] <> J.[i]).
Proof.
  intros Hi. unfold run_end. rewrite rd_ok by lia. cbn [bind].
  assert (G : wp (while_ (S nnz) (fun '(i0, j) => if j <? nnz then x <- rd J j ;; Ok (x =? J.[i])%Z else Ok false) (fun '(i0, j) => Ok (S i0, S j)) (i, S i))
     (fun st => i <= fst st /\ fst st < nnz /\ (forall k, i < k -> k <= fst st -> J.[k] = J.[i]) /\ (S (fst st) < nnz -> J.[S (fst st)] <> J.[i]))).
  { apply (wp_while (fun st => snd st = S (fst st) /\ i <= fst st /\ fst st < nnz /\ forall k, i < k -> k <= fst st -> J.[k] = J.[i]) (fun st => nnz - fst st)); [|cbn [fst snd]; lia|].
    - cbn [fst snd]. splits; auto. intros; lia.
    - intros [a b] (E & H1 & H2 & H3). cbn [fst snd] in *. subst b. destruct (Nat.ltb_spec (S a) nnz) as [Hl|Hl].
      + wp1. wp1; [lia|]. cbn [wp]. destruct (Z.eqb_spec J.[S a] J.[i]) as [E|E].
        * cbn [wp fst snd]. split; [splits; auto; try lia|lia]. intros k Hk Hk'. destruct (Nat.eq_dec k (S a)) as [->|]; auto. apply H3; lia.
        * splits; auto.
      + cbn [wp]. splits; auto. lia. }
  apply wp_ok in G. destruct G as ([e x] & -> & G). cbn [bind fst] in *. exists e. tauto.
Qed.

Lemma bl_skip i e : i <= e -> e < nnz -> (forall k, i < k -> k <= e -> J.[k] = J.[i]) -> bl (S i) = bl (S e).
Proof.
  intros H1 H2 H3. unfold bl. replace (nnz - S i) with ((e - i) + (nnz - S e)) by lia. rewrite seq_app, filter_app. replace (S i + (e - i)) with (S e) by lia.
  replace (filter bnd (seq (S i) (e - i))) with (@nil nat); auto. symmetry.
  assert (G : forall l, (forall k, In k l -> bnd k = false) -> filter bnd l = []). { induction l as [|a l IH]; intros H; auto. cbn [filter]. rewrite H by (left; auto). apply IH. intros; apply H; right; auto. }
  apply G. intros k Hk. apply in_seq in Hk. unfold bnd. replace (k =? 0) with false by lia. rewrite (H3 k) by lia.
  destruct (Nat.eq_dec (k - 1) i) as [->|]; [|rewrite (H3 (k - 1)) by lia]; now rewrite Z.eqb_refl.
Qed.

Definition runs_cond : nat * nat * list nat -> res bool := fun '(i, index, p) => Ok (i <? nnz).
Definition runs_body : nat * nat * list nat -> res (nat * nat * list nat) :=
  fun '(i, index, p) => p <- wr p index i ;; i <- run_end nnz J i ;; Ok (S i, S index, p).

Lemma runs_loop : forall fuel i index p, nnz - i < fuel -> i <= nnz -> (i < nnz -> bnd i = true) -> index <= length p ->
  while_ fuel runs_cond runs_body (i, index, p) =
    if index + length (bl i) <=? length p then Ok (nnz, index + length (bl i), wrs p index (bl i)) else Err OOB.
Proof.
  induction fuel as [|fuel IH]; intros i index p HF Hi HB HI; [lia|]. cbn [while_]. unfold runs_cond at 1. cbn [bind]. destruct (Nat.ltb_spec i nnz) as [Hl|Hl].
  - unfold runs_body at 1. assert (EB : bl i = i :: bl (S i)). { unfold bl. replace (nnz - i) with (S (nnz - S i)) by lia. cbn [seq filter]. now rewrite HB. }
    rewrite EB. cbn [length wrs]. destruct (Nat.eq_dec index (length p)) as [->|Hne].
    + rewrite wr_oob by lia. cbn [bind]. destruct (Nat.leb_spec (length p + S (length (bl (S i)))) (length p)); [lia|reflexivity].
    + rewrite wr_ok by lia. cbn [bind]. destruct (run_end_ok i Hl) as (e & -> & E1 & E2 & E3 & E4). cbn [bind].
      rewrite IH; rewrite ?upd_length; try lia.
      * rewrite (bl_skip i e) by auto. replace (index + S (length (bl (S e)))) with (S index + length (bl (S e))) by lia. reflexivity.
      * intros Hse. unfold bnd. replace (S e =? 0) with false by lia. cbn [orb]. replace (S e - 1) with e by lia. specialize (E4 Hse).
        destruct (Nat.eq_dec e i) as [->|]; [|rewrite (E3 e) by lia]; apply negb_true_iff, Z.eqb_neq; auto.
  - replace i with nnz by lia. unfold bl. rewrite Nat.sub_diag. cbn [seq filter length wrs]. rewrite Nat.add_0_r. replace (index <=? length p) with true by lia. reflexivity.
Qed.

Lemma run_starts_eq p : run_starts nnz J p = if length (bl 0) <=? length p then Ok (wrs p 0 (bl 0)) else Err OOB.
Proof.
  unfold run_starts. fold runs_cond. fold runs_body. rewrite runs_loop by (try lia; intros; reflexivity). cbn [Nat.add].
  destruct (length (bl 0) <=? length p); reflexivity.
Qed.
End Runs.
