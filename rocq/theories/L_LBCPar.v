(** Proofs about the parallel LBC coarsening: one slab. *)
From Verif Require Import Base Lib Lib2 Spec M_LevelSet L_LevelSet L_LevelSet2 M_CC P_CC M_LBC M_LBCPar L_LBC L_LBC2 L_LBC3 L_LBC4 L_LBC5 L_LBC6.
From Coq Require Import ZifyBool ZifyNat.

(** * The level pointers past the last level *)
Lemma pc_wr_upd {A} (l : list A) i v (P : list A -> Prop) : (i < length l -> P (upd l i v)) -> pc (wr l i v) P.
Proof. intros H r E. unfold wr in E. destruct (Nat.ltb_spec i (length l)); [|discriminate]. injection E as <-. auto. Qed.

Lemma inplace_tail n Lp Li lp ls : pc (build_levelSet_CSC_inplace n Lp Li lp ls)
  (fun '(lv, (ptr, lset)) => (0 <= lv)%Z -> forall i, Z.to_nat lv < i -> ptr.[i] = lp.[i]).
Proof.
  unfold build_levelSet_CSC_inplace. apply pc_bind, pc_any. intros deg. apply pc_bind.
  apply (pc_mono _ (fun s => forall i, l2_cur s < i -> (l2_ptr s).[i] = lp.[i])).
  - apply pc_while; [auto|]. intros s H1. unfold ls2_round. apply pc_bind. apply pc_any. intros [[vis lset] col].
    destruct (n <=? S (l2_cur s)); [apply pc_ret; cbn [l2_ptr l2_cur]; intros i Hi; apply H1; lia|].
    apply pc_bind, pc_wr_upd. intros Hw. do 5 (apply pc_bind, pc_any; intros ?). apply pc_ret. cbn [l2_ptr l2_cur].
    intros i Hi. rewrite aget_upd_ne by lia. apply H1. lia.
  - intros s H. apply pc_ret. destruct (l2_fail s); intros Hv i Hi; [lia|]. apply H. lia.
Qed.

(** * Two runs of the breadth-first search *)
Lemma for_rel {S1 S2} (R : S1 -> S2 -> Prop) (f : nat -> S1 -> res S1) (g : nat -> S2 -> res S2) a b s1 s2 s1' :
  (forall i x y x', a <= i < b -> R x y -> f i x = Ok x' -> exists y', g i y = Ok y' /\ R x' y') ->
  R s1 s2 -> for_ a b f s1 = Ok s1' -> exists s2', for_ a b g s2 = Ok s2' /\ R s1' s2'.
Proof.
  remember (b - a) as m eqn:Em. revert a s1 s2 Em. induction m as [|m IH]; intros a s1 s2 Em HF HR.
  - rewrite !for_nil by lia. intros E. injection E as <-. eauto.
  - rewrite !(for_step _ a) by lia. destruct (f a s1) as [x'|] eqn:Ef; cbn [bind]; [|discriminate].
    destruct (HF a s1 s2 x' ltac:(lia) HR Ef) as (y' & -> & HR'). cbn [bind]. apply IH; auto; [lia|].
    intros i x y x0 Hi. apply HF. lia.
Qed.

Lemma while_rel {S1 S2} (R : S1 -> S2 -> Prop) fuel (c1 : S1 -> res bool) (c2 : S2 -> res bool) (f : S1 -> res S1) (g : S2 -> res S2) :
  (forall x y b, R x y -> c1 x = Ok b -> c2 y = Ok b) ->
  (forall x y x', R x y -> c1 x = Ok true -> f x = Ok x' -> exists y', g y = Ok y' /\ R x' y') ->
  forall s1 s2 s1', R s1 s2 -> while_ fuel c1 f s1 = Ok s1' -> exists s2', while_ fuel c2 g s2 = Ok s2' /\ R s1' s2'.
Proof.
  intros HC HF. induction fuel as [|fuel IH]; intros s1 s2 s1' HR; simpl; [discriminate|].
  destruct (c1 s1) as [b|] eqn:Ec; cbn [bind]; [|discriminate]. rewrite (HC _ _ _ HR Ec). cbn [bind]. destruct b.
  - destruct (f s1) as [x'|] eqn:Ef; cbn [bind]; [|discriminate]. destruct (HF s1 s2 x' HR Ec Ef) as (y' & -> & HR'). cbn [bind]. apply IH; auto.
  - intros E. injection E as <-. eauto.
Qed.

Lemma rd_inv {A} `{Dflt A} (l : list A) i x : rd l i = Ok x -> i < length l /\ x = l.[i].
Proof.
  intros E. destruct (Nat.lt_ge_cases i (length l)) as [L|L].
  - rewrite rd_ok in E by auto. injection E as <-. auto.
  - unfold rd in E. destruct (nth_error l i) eqn:X; [|discriminate]. apply nth_error_Some_lt in X || (assert (nth_error l i <> None) by congruence; apply nth_error_Some in H0). lia.
Qed.

Lemma wr_inv {A} (l : list A) i v x : wr l i v = Ok x -> i < length l /\ x = upd l i v.
Proof. unfold wr. destruct (Nat.ltb_spec i (length l)); [|discriminate]. intros E. injection E as <-. auto. Qed.

Lemma bind_inv {A B} (m : res A) (k : A -> res B) r : bind m k = Ok r -> exists a, m = Ok a /\ k a = Ok r.
Proof. destruct m as [a|]; simpl; [eauto|discriminate]. Qed.

Section Sim.
Variables (n : nat) (Lp Li : list nat).
Hypothesis W : wf_csc n Lp Li.
Variables (levelNo : nat) (lp ls n2l : list nat).
Hypothesis LO : lev_ok n Lp Li levelNo lp ls n2l.
Variables (a b : nat).
Hypothesis Ha : a < levelNo.
Variables (n2p : list (option nat)).
Local Notation slab := (slab n n2l a b).

(** the states agree on the slab, and all later nodes are marked in both *)
Definition agree (d1 d2 : list Z) (v1 v2 : list bool) : Prop :=
  length d1 = n /\ length d2 = n /\ length v1 = n /\ length v2 = n /\
  (forall v, slab v -> d1.[v] = d2.[v] /\ v1.[v] = v2.[v]) /\
  (forall v, v < n -> b <= n2l.[v] -> v1.[v] = true /\ v2.[v] = true).

Definition Rq (s1 s2 : list nat * list Z * list bool * list (list nat)) : Prop :=
  let '(q1, d1, v1, l1) := s1 in let '(q2, d2, v2, l2) := s2 in
  q1 = q2 /\ l1 = l2 /\ agree d1 d2 v1 v2 /\ forall v, In v q1 -> slab v.

Lemma bfs_pop_rel s1 s2 s1' : Rq s1 s2 -> bfs_pop Lp Li n2p s1 = Ok s1' -> exists s2', bfs_pop Lp Li n2p s2 = Ok s2' /\ Rq s1' s2'.
Proof.
  destruct s1 as [[[q d1] v1] l1], s2 as [[[q' d2] v2] l2]. intros (<- & <- & (L1 & L2 & L3 & L4 & AG & UP) & HQ). destruct q as [|x q]; cbn [bfs_pop].
  { intros E. injection E as <-. exists ([], d2, v2, l1). split; auto. unfold Rq, agree. splits; auto. }
  intros E. apply bind_inv in E. destruct E as (v1' & E1 & E). apply wr_inv in E1. destruct E1 as (X1 & ->).
  pose proof (HQ x ltac:(now left)) as Sx. pose proof Sx as (Hx & Hxa & Hxb). unfold wr at 1. replace (x <? length v2) with true by lia. cbn [bind].
  destruct (rd n2p x) as [[c|]|] eqn:Ec; cbn [bind] in *; try discriminate.
  destruct (rd l1 c) as [l|] eqn:El; cbn [bind] in *; [|discriminate].
  destruct (wr l1 c (l ++ [x])) as [lists|] eqn:Elw; cbn [bind] in *; [|discriminate].
  destruct (rd Lp x) as [p|] eqn:Ep; cbn [bind] in *; [|discriminate]. destruct (rd Lp (S x)) as [r|] eqn:Er; cbn [bind] in *; [|discriminate].
  apply bind_inv in E. destruct E as ([q1 dd1] & E1 & E). injection E as <-.
  apply rd_inv in Ep, Er. destruct Ep as (_ & ->), Er as (_ & ->).
  set (v1' := upd v1 x true) in *. set (v2' := upd v2 x true).
  assert (VV : forall v, v < n -> slab v -> v1'.[v] = v2'.[v]).
  { intros v Hv Sv. unfold v1', v2'. rewrite !aget_upd by lia. destruct (v =? x); auto. now apply AG. }
  assert (VU : forall v, v < n -> b <= n2l.[v] -> v1'.[v] = true /\ v2'.[v] = true).
  { intros v Hv Hb. unfold v1', v2'. rewrite !aget_upd by lia. destruct (v =? x); auto. }
  assert (K : exists s2', for_ Lp.[x] Lp.[S x] (fun r0 '(queue, deg) => cn <- rd Li r0;; d <- rd deg cn;; deg0 <- wr deg cn (d - 1)%Z;;
      (if (d - 1 =? 1)%Z then v <- rd v2' cn;; Ok (if v : bool then queue else queue ++ [cn], deg0) else Ok (queue, deg0))) (q, d2) = Ok s2' /\
      (fun s1 s2 : list nat * list Z => fst s1 = fst s2 /\ (forall v, In v (fst s1) -> slab v) /\ length (snd s1) = n /\ length (snd s2) = n /\ (forall v, slab v -> (snd s1).[v] = (snd s2).[v])) (q1, dd1) s2').
  { eapply (for_rel (fun s1 s2 : list nat * list Z => fst s1 = fst s2 /\ (forall v, In v (fst s1) -> slab v) /\ length (snd s1) = n /\ length (snd s2) = n /\ (forall v, slab v -> (snd s1).[v] = (snd s2).[v])));
      [| |exact E1].
    - intros i [qa da] [qb db] [qc dc] Hi (A1 & A2 & A3 & A4 & A5) F. cbn [fst snd] in *. subst qb.
      destruct (wf_col_lt n Lp Li W x i Hx ltac:(lia)) as [Hr1 Hr2].
      rewrite rd_ok in F |- * by auto. cbn [bind] in *. set (cn := Li.[i]) in *.
      assert (Hcn : cn < n) by (destruct W as (_ & _ & _ & _ & Wlt); apply Wlt; auto).
      rewrite rd_ok in F |- * by lia. cbn [bind] in *.
      unfold wr in F |- *. replace (cn <? length da) with true in F by lia. replace (cn <? length db) with true by lia. cbn [bind] in *.
      assert (Hup : cn = x \/ slab cn \/ b <= n2l.[cn]).
      { destruct (Nat.eq_dec cn x) as [|Hne]; auto. right. assert (He : edge n Lp Li x cn).
        { split; [exact Hx|]. split; [|auto]. exists i. auto. }
        pose proof (lo_edge _ _ _ _ _ _ _ LO x cn He). destruct (le_lt_dec b n2l.[cn]); [auto|]. left. split; [auto|lia]. }
      assert (UD : forall z1 z2, (slab cn -> z1 = z2) -> forall v, slab v -> (upd da cn z1).[v] = (upd db cn z2).[v]).
      { intros z1 z2 Hz v Sv. rewrite !aget_upd by lia. destruct (Nat.eqb_spec v cn) as [->|]; auto. }
      destruct Hup as [Ex|[Sc|Ub]].
      + rewrite Ex in *. rewrite <- (A5 x Sx) in *.
        assert (E3 : v1'.[x] = true) by (unfold v1'; rewrite aget_upd_eq; auto). assert (E4 : v2'.[x] = true) by (unfold v2'; rewrite aget_upd_eq; lia).
        unfold v1', v2' in *. rewrite !rd_ok in * by (rewrite upd_length; lia). cbn [bind] in *. rewrite E3 in F. rewrite E4.
        destruct (da.[x] - 1 =? 1)%Z; injection F as <- <-; eexists; (split; [reflexivity|]); cbn [fst snd]; rewrite !upd_length; splits; auto.
      + rewrite <- (A5 cn Sc). pose proof (VV cn Hcn Sc) as EV.
        unfold v1', v2' in *. rewrite !rd_ok in * by (rewrite upd_length; lia). cbn [bind] in *. rewrite <- EV.
        destruct (da.[cn] - 1 =? 1)%Z; [destruct (upd v1 x true).[cn]|]; injection F as <- <-; eexists; (split; [reflexivity|]); cbn [fst snd]; rewrite !upd_length; splits; auto.
        intros v Hv. apply in_app_iff in Hv. destruct Hv as [|[<-|[]]]; auto.
      + destruct (VU cn Hcn Ub) as (E3 & E4). unfold v1', v2' in *. rewrite !rd_ok in * by (rewrite upd_length; lia). cbn [bind] in *. rewrite E3 in F. rewrite E4.
        assert (NS : slab cn -> False) by (intros (_ & Hl); lia).
        destruct (da.[cn] - 1 =? 1)%Z, (db.[cn] - 1 =? 1)%Z; injection F as <- <-; eexists; (split; [reflexivity|]); cbn [fst snd]; rewrite !upd_length; splits; auto; apply UD; intros; exfalso; auto.
    - cbn [fst snd]. splits; auto. + intros v Hv. apply HQ. now right. + intros v Hv. now apply AG. }
  destruct K as ([q2 dd2] & E2 & (K1 & K2 & K3 & K4 & K5)). cbn [fst snd] in *. subst q2.
  fold v2'. rewrite E2. cbn [bind]. eexists. split; [reflexivity|]. unfold Rq, agree. splits; auto; try (unfold v1', v2'; rewrite upd_length; auto).
  intros v Sv. split; auto. apply VV; auto. apply Sv.
Qed.

Lemma bfs_rel d1 d2 v1 v2 lists d1' v1' l1' : agree d1 d2 v1 v2 -> a < b ->
  modified_BFS_CSC n Lp Li d1 v1 n2p lp ls a lists = Ok (d1', v1', l1') ->
  exists d2' v2', modified_BFS_CSC n Lp Li d2 v2 n2p lp ls a lists = Ok (d2', v2', l1') /\ agree d1' d2' v1' v2'.
Proof.
  intros AG Hab E. unfold modified_BFS_CSC in *.
  pose proof (lo_lp _ _ _ _ _ _ _ LO) as LL. pose proof (lo_ls _ _ _ _ _ _ _ LO) as LS. pose proof (lo_le _ _ _ _ _ _ _ LO (S a) ltac:(lia)) as Hn.
  rewrite !rd_ok in * by lia. cbn [bind] in *.
  set (R := fun (s1 s2 : list Z * list bool * list (list nat)) => let '(x1, y1, z1) := s1 in let '(x2, y2, z2) := s2 in z1 = z2 /\ agree x1 x2 y1 y2).
  match type of E with for_ ?p ?q ?f _ = _ =>
    assert (K : exists s2', for_ p q f (d2, v2, lists) = Ok s2' /\ R (d1', v1', l1') s2') end.
  { eapply (for_rel R); [| |exact E].
    - intros i [[x1 y1] z1] [[x2 y2] z2] [[x3 y3] z3] Hi (<- & A) F. rewrite rd_ok in F |- * by lia. cbn [bind] in *.
      apply bind_inv in F. destruct F as ([[[q x4] y4] z4] & F1 & F). injection F as -> -> ->.
      assert (Scur : slab ls.[i]).
      { pose proof (lo_lt _ _ _ _ _ _ _ LO i ltac:(lia)). pose proof (lo_at _ _ _ _ _ _ _ LO a i Ha ltac:(lia)). split; [auto|lia]. }
      eapply (while_rel Rq) in F1.
      + destruct F1 as ([[[q2 x5] y5] z5] & F2 & (G1 & G2 & G3 & G4)). rewrite F2. cbn [bind]. eexists. split; [reflexivity|]. split; auto.
      + intros [[[? ?] ?] ?] [[[? ?] ?] ?] bb (<- & _) Eb. exact Eb.
      + intros s1 s2 s1' HR _ Eb. eapply bfs_pop_rel; eauto.
      + unfold Rq. splits; auto. intros v [<-|[]]. auto.
    - unfold R. auto. }
  destruct K as ([[d2' v2'] z] & K1 & (<- & K2)). eauto.
Qed.
End Sim.
