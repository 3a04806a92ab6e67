(** dfs_BCSC_CC and modified_BFS_BCSC follow dfs_CSC_CC and modified_BFS_CSC on the graph of the blocks. *)
From Verif Require Import Base Lib Lib2 Spec SpecBCSC L_Util M_LevelSet L_LevelSet M_LBC L_LBC2 L_LBC4 L_LBC5 L_Multi2 M_LBCTree M_BCSC L_BCSC.
From Coq Require Import ZifyBool ZifyNat.

Lemma wr_Ok {A} (l : list A) `{Dflt A} i x l' : wr l i x = Ok l' -> i < length l /\ l' = upd l i x.
Proof.
  intros E. destruct (le_lt_dec (length l) i) as [L|L].
  - rewrite wr_oob in E by auto. discriminate.
  - rewrite wr_ok in E by auto. inversion E. auto.
Qed.

Lemma F2_length {A B} (R : A -> B -> Prop) l l' : Forall2 R l l' -> length l = length l'.
Proof. induction 1; simpl; congruence. Qed.

Lemma forb_skip {S} (body : nat -> S -> res (bool * S)) st : forall k a r, (forall i, a <= i < a + k -> body i st = Ok (false, st)) ->
  forb_n (k + r) a body st = forb_n r (a + k) body st.
Proof.
  induction k as [|k IH]; intros a r H; simpl; [now rewrite Nat.add_0_r|].
  rewrite H by lia. simpl. rewrite IH by (intros; apply H; lia). now rewrite Nat.add_succ_comm.
Qed.

Lemma sim_for_shift {S S'} (R : S -> S' -> Prop) a b a' b' (f : nat -> S -> res S) (f' : nat -> S' -> res S') : b - a = b' - a' ->
  (forall i s s' t, i < b - a -> R s s' -> f (a + i) s = Ok t -> exists t', f' (a' + i) s' = Ok t' /\ R t t') ->
  forall s s' t, R s s' -> for_ a b f s = Ok t -> exists t', for_ a' b' f' s' = Ok t' /\ R t t'.
Proof.
  unfold for_. intros Eb. rewrite <- Eb. clear Eb. generalize (b - a) as k. clear b b'. intros k. revert a a'.
  induction k as [|k IH]; intros a a' Hf s s' t HR E; simpl in *.
  - exists s'. split; [auto|congruence].
  - destruct (f a s) as [u|] eqn:Ef; [|discriminate]. simpl in E.
    destruct (Hf 0 s s' u ltac:(lia) HR) as (u' & Eu & HR'); [now rewrite Nat.add_0_r|]. rewrite Nat.add_0_r in Eu. rewrite Eu. simpl.
    apply (IH (Datatypes.S a) (Datatypes.S a')) with (s := u); auto. intros i s0 s0' t0 Hi HR0 E0.
    rewrite Nat.add_succ_comm in E0 |- *. apply (Hf (Datatypes.S i) s0 s0'); auto. lia.
Qed.

Section Blocks.
Variables (nb : nat) (b2c c2b Lip Li : list nat).
Hypothesis BK : blk_ok nb b2c c2b Lip Li.
Local Notation Gp := (gp nb b2c c2b Lip Li).
Local Notation Gi := (gi nb b2c c2b Lip Li).
Local Notation low := (below b2c Lip).
Local Notation num := (bcnt b2c Lip).

(** * Depth first search *)

Definition in_blk (s c : nat) : Prop := s < nb /\ b2c.[s] <= c < b2c.[S s].
Lemma in_blk_c2b s c : in_blk s c -> rd c2b c = Ok s.
Proof.
  intros (Hs & Hc). pose proof (b2c_le nb b2c c2b Lip Li BK (S s) nb ltac:(lia) ltac:(lia)). pose proof (bk_c2b _ _ _ _ _ BK).
  rewrite rd_ok by lia. now rewrite (bk_of _ _ _ _ _ BK s c).
Qed.
Lemma in_blk_at s c : in_blk s c -> c2b.[c] = s.
Proof. intros H. apply in_blk_c2b in H. destruct (rd_Ok _ _ _ H) as [_ E]. symmetry. exact E. Qed.

Definition pos_rel (s q qb : nat) : Prop :=
  (low s <= qb /\ q = Gp.[s] + S (qb - low s)) \/ (Lip.[b2c.[s]] <= qb <= low s /\ Gp.[s] <= q <= S Gp.[s]).

Definition scan_c (m : list Z) (q : nat) (st : list nat * option (nat * nat)) : res (bool * (list nat * option (nat * nat))) :=
  let '(clash, _) := st in
  i <- rd Gi q ;; mi <- rd m i ;;
  let clash := if (mi =? -1)%Z then clash ++ [i] else clash in
  if (mi =? 0)%Z then Ok (true, (clash, Some (q, i))) else Ok (false, (clash, None)).
Definition scan_b (m : list Z) (q : nat) (st : list nat * option (nat * nat)) : res (bool * (list nat * option (nat * nat))) :=
  let '(clash, _) := st in
  i <- rd Li q ;; t <- rd c2b i ;; _ <- rd b2c (S t) ;; _ <- rd b2c t ;; mi <- rd m t ;;
  let clash := if (mi =? -1)%Z then clash ++ [t] else clash in
  if (mi =? 0)%Z then Ok (true, (clash, Some (q, i))) else Ok (false, (clash, None)).

Definition found_rel (s : nat) (f fb : option (nat * nat)) : Prop :=
  match f, fb with
  | None, None => True
  | Some (q, i), Some (qb, c) => pos_rel s q qb /\ in_blk i c
  | _, _ => False
  end.

Lemma scan_b_at m q cl f s c : q < length Li -> Li.[q] = c -> in_blk s c -> scan_b m q (cl, f) =
  (mi <- rd m s ;; let clash := if (mi =? -1)%Z then cl ++ [s] else cl in if (mi =? 0)%Z then Ok (true, (clash, Some (q, c))) else Ok (false, (clash, None))).
Proof.
  intros Hq <- Hb. unfold scan_b. rewrite rd_ok by auto. cbn [bind]. rewrite (in_blk_c2b _ _ Hb). cbn [bind]. destruct Hb as (Hs & _).
  rewrite rd_ok by (apply (b2c_len nb b2c c2b Lip Li BK); lia). cbn [bind].
  rewrite rd_ok by (apply (b2c_len nb b2c c2b Lip Li BK); lia). cbn [bind]. reflexivity.
Qed.

Lemma scan_c_at m q cl f i : q < length Gi -> Gi.[q] = i -> scan_c m q (cl, f) =
  (mi <- rd m i ;; let clash := if (mi =? -1)%Z then cl ++ [i] else cl in if (mi =? 0)%Z then Ok (true, (clash, Some (q, i))) else Ok (false, (clash, None))).
Proof. intros Hq <-. unfold scan_c. rewrite rd_ok by auto. reflexivity. Qed.

Lemma scan_rel m s q qb cl cl' f : s < nb -> s < length m -> m.[s] = 1%Z -> pos_rel s q qb ->
  forb_ q Gp.[S s] (scan_c m) (cl, None) = Ok (cl', f) ->
  exists fb, forb_ qb Lip.[b2c.[S s]] (scan_b m) (cl, None) = Ok (cl', fb) /\ found_rel s f fb.
Proof.
  intros Hs HL Hm Hp. pose proof (below_le nb b2c c2b Lip Li BK s Hs) as Hlow. pose proof (gp_S nb b2c c2b Lip Li s Hs) as HG.
  assert (Hnum : Lip.[b2c.[S s]] = low s + num s) by (unfold bcnt; lia).
  (* the rows below the block, in step *)
  assert (Low : forall k t cl cl' f, t + k = num s -> forb_n k (Gp.[s] + S t) (scan_c m) (cl, None) = Ok (cl', f) ->
     exists fb, forb_n k (low s + t) (scan_b m) (cl, None) = Ok (cl', fb) /\ found_rel s f fb).
  { clear q qb Hp cl cl' f. induction k as [|k IH]; intros t cl cl' f Ht E; cbn [forb_n] in E |- *.
    - inversion E; subst. exists None. split; [auto|simpl; auto].
    - destruct (gi_at nb b2c c2b Lip Li s (S t) Hs ltac:(lia)) as [A1 A2]. rewrite aget_cons_S in A2. rewrite brows_at in A2 by lia.
      destruct (row_ok nb b2c c2b Lip Li BK s t Hs ltac:(lia)) as [B1 B2].
      destruct (row_blk nb b2c c2b Lip Li BK _ (S s) ltac:(lia) B2) as (_ & C1 & C2).
      set (c := Li.[low s + t]) in *. set (i := c2b.[c]) in *.
      assert (Hb : in_blk i c) by (split; [lia|auto]).
      rewrite (scan_b_at m (low s + t) cl None i c) by auto.
      rewrite (scan_c_at m _ cl None i) in E by auto.
      destruct (rd m i) as [mi|]; [|discriminate]. cbn [bind] in *. cbv zeta in *.
      destruct (mi =? 0)%Z.
      + cbn [bind fst snd] in *. inversion E; subst. eexists. split; [reflexivity|]. simpl. split; [|exact Hb].
        left. split; [lia|]. f_equal. lia.
      + cbn [bind fst snd] in *. rewrite <- Nat.add_succ_r in *. apply (IH (S t)); [lia|exact E]. }
  assert (Start : forall q, Gp.[s] <= q <= S Gp.[s] -> forb_ q Gp.[S s] (scan_c m) (cl, None) = Ok (cl', f) ->
     forb_n (num s) (Gp.[s] + 1) (scan_c m) (cl, None) = Ok (cl', f)).
  { intros x Hx E. unfold forb_ in E. destruct (Nat.eq_dec x Gp.[s]) as [->|].
    - replace (Gp.[S s] - Gp.[s]) with (1 + num s) in E by lia. rewrite forb_skip in E; [exact E|].
      intros i Hi. replace i with Gp.[s] by lia. unfold scan_c. destruct (gi_at nb b2c c2b Lip Li s 0 Hs ltac:(lia)) as [A1 A2].
      rewrite Nat.add_0_r in *. rewrite rd_ok by auto. rewrite A2, aget_cons_0. cbn [bind]. rewrite rd_ok by auto. cbn [bind]. rewrite Hm. reflexivity.
    - replace x with (Gp.[s] + 1) in E by lia. now replace (Gp.[S s] - (Gp.[s] + 1)) with (num s) in E by lia. }
  intros E. destruct Hp as [(P1 & P2)|(P1 & P2)].
  - unfold forb_ in *. destruct (le_lt_dec Lip.[b2c.[S s]] qb) as [Hov|Hov].
    + replace (Gp.[S s] - q) with 0 in E by lia. replace (Lip.[b2c.[S s]] - qb) with 0 by lia. simpl in *. inversion E; subst. exists None. split; [auto|simpl; auto].
    + rewrite P2 in E. replace (Gp.[S s] - (Gp.[s] + S (qb - low s))) with (num s - (qb - low s)) in E by lia.
      destruct (Low (num s - (qb - low s)) (qb - low s) cl cl' f ltac:(lia) E) as (fb & Ef & Hf). exists fb. split; [|auto].
      replace (low s + (qb - low s)) with qb in Ef by lia. now replace (Lip.[b2c.[S s]] - qb) with (num s - (qb - low s)) by lia.
  - specialize (Start q P2 E). destruct (Low (num s) 0 cl cl' f ltac:(lia) Start) as (fb & Ef & Hf). exists fb. split; [|auto].
    unfold forb_. replace (Lip.[b2c.[S s]] - qb) with ((low s - qb) + num s) by lia. rewrite forb_skip.
    + replace (qb + (low s - qb)) with (low s + 0) by lia. exact Ef.
    + intros i Hi. unfold below in Hi. pose proof (bk_own _ _ _ _ _ BK s (i - Lip.[b2c.[s]]) Hs ltac:(lia)) as O.
      replace (Lip.[b2c.[s]] + (i - Lip.[b2c.[s]])) with i in O by lia. unfold below in *.
      rewrite (scan_b_at m i cl None s (b2c.[s] + (i - Lip.[b2c.[s]]))); auto.
      * rewrite rd_ok by auto. cbn [bind]. rewrite Hm. reflexivity.
      * apply (pos_len nb b2c c2b Lip Li BK s); [auto|lia].
      * split; [auto|lia].
Qed.

Definition ent_rel (m : list Z) (e eb : nat * option nat) : Prop :=
  in_blk (fst e) (fst eb) /\
  match snd e, snd eb with
  | None, None => True
  | Some q, Some qb => pos_rel (fst e) q qb /\ m.[fst e] = 1%Z
  | _, _ => False
  end.

Definition dfs_rel (s sb : list (nat * option nat) * list nat * list Z * list nat) : Prop :=
  let '(stk, out, m, cl) := s in let '(stkb, outb, mb, clb) := sb in
  outb = out /\ mb = m /\ clb = cl /\ Forall2 (ent_rel m) stk stkb.

Lemma ent_rel_upd m s e eb : ent_rel m e eb -> s < length m -> ent_rel (upd m s 1%Z) e eb.
Proof.
  intros (A & B) Hs. split; [auto|]. destruct (snd e) as [q|], (snd eb) as [qb|]; auto. destruct B as [B C]. split; [auto|].
  rewrite aget_upd by auto. destruct (Nat.eqb_spec (fst e) s); auto.
Qed.

Lemma dfs_step_rel s sb t : dfs_rel s sb -> dfs_step nb Gp Gi s = Ok t -> exists tb, dfs_step_b b2c c2b Lip Li nb sb = Ok tb /\ dfs_rel t tb.
Proof.
  destruct s as [[[stk out] m] cl], sb as [[[stkb outb] mb] clb]. intros (-> & -> & -> & HF) E.
  destruct HF as [|[j p] [c pb] rest restb (Hb & Hp) HF]; simpl in E |- *.
  { inversion E; subst. eexists. split; [reflexivity|]. simpl. auto. }
  cbn [fst snd] in *. rewrite (in_blk_c2b _ _ Hb). cbn [bind]. pose proof Hb as (Hj & Hc).
  destruct (rd m j) as [mj|] eqn:Em; [|discriminate]. cbn [bind] in *. destruct (rd_Ok _ _ _ Em) as [HL Emj]; clear Em.
  (* the mark and the position *)
  assert (X : (exists m1 q qb, length m1 = length m /\ m1.[j] = 1%Z /\ pos_rel j q qb /\ Forall2 (ent_rel m1) rest restb /\
     (('(marked, p) <- (if (mj =? 0)%Z then marked <- wr m j 1%Z ;; g <- rd Gp j ;; Ok (marked, Some g) else Ok (m, p)) ;;
       Ok (marked, p)) = Ok (m1, Some q)) /\
     (('(marked, p) <- (if (mj =? 0)%Z then marked <- wr m j 1%Z ;; g <- rd Lip c ;; Ok (marked, Some g) else Ok (m, pb)) ;;
       Ok (marked, p)) = Ok (m1, Some qb))) \/ p = None /\ (mj =? 0)%Z = false).
  { destruct (mj =? 0)%Z eqn:Ez.
    - left. exists (upd m j 1%Z), Gp.[j], Lip.[c]. rewrite upd_length. split; [auto|]. split; [apply aget_upd_eq; auto|].
      pose proof (bk_mid _ _ _ _ _ BK j c Hj Hc) as Hmid. pose proof (b2c_le nb b2c c2b Lip Li BK (S j) nb ltac:(lia) ltac:(lia)).
      split; [right; unfold below; lia|]. split.
      + clear E. induction HF as [|e eb r rb He HF IH]; constructor; auto. now apply ent_rel_upd.
      + rewrite wr_ok by auto. cbn [bind]. rewrite rd_ok by (rewrite gp_len; lia). cbn [bind].
        rewrite rd_ok by (apply (lip_len nb b2c c2b Lip Li BK); lia). cbn [bind]. auto.
    - destruct p as [q|]; [|right; auto]. destruct pb as [qb|]; [|destruct Hp]. left. destruct Hp as [Hp1 Hp2].
      exists m, q, qb. split; [auto|]. split; [auto|]. split; [auto|]. split; [auto|]. split; reflexivity. }
  destruct X as [X|(-> & Ez)].
  2:{ exfalso. rewrite Ez in E. cbn [bind] in E. rewrite rd_ok in E by auto. cbn [bind] in E. destruct (rd Gp (S j)); discriminate. }
  destruct X as (m1 & q & qb & L1 & M1 & P1 & F1 & X1 & X2).
  destruct (if (mj =? 0)%Z then _ else Ok (m, p)) as [[m1' p1']|] eqn:E1 in X1; [|discriminate]. cbn [bind] in X1. inversion X1; subst m1' p1'. clear X1.
  destruct (if (mj =? 0)%Z then _ else Ok (m, pb)) as [[m1' p1']|] eqn:E2 in X2; [|discriminate]. cbn [bind] in X2. inversion X2; subst m1' p1'. clear X2.
  rewrite E1 in E. rewrite E2. clear E1 E2. cbn [bind] in *. rewrite rd_ok in E |- * by lia. cbn [bind] in *. rewrite M1 in *.
  cbn [Z.eqb] in *. cbv zeta in *.
  rewrite rd_ok in E by (rewrite gp_len; lia). cbn [bind] in E.
  rewrite rd_ok by (apply (b2c_len nb b2c c2b Lip Li BK); lia). cbn [bind].
  rewrite rd_ok by (apply (b2c_len nb b2c c2b Lip Li BK); lia). cbn [bind].
  pose proof (b2c_le nb b2c c2b Lip Li BK (S j) nb ltac:(lia) ltac:(lia)).
  rewrite rd_ok by (apply (lip_len nb b2c c2b Lip Li BK); lia). cbn [bind].
  fold (scan_c m1) in E. fold (scan_b m1).
  destruct (forb_ q Gp.[S j] (scan_c m1) (cl, None)) as [[cl' f]|] eqn:Es; [|discriminate].
  destruct (scan_rel m1 j q qb cl cl' f Hj ltac:(lia) M1 P1 Es) as (fb & -> & Hf). cbn [bind] in *.
  assert (LR : length rest = length restb) by (eapply F2_length; eauto).
  destruct f as [[q' i]|], fb as [[qb' c']|]; try destruct Hf.
  - rewrite <- LR. destruct (S (length rest + length out) <? nb); [|discriminate]. inversion E; subst. eexists. split; [reflexivity|].
    cbn [dfs_rel]. split; [auto|]. split; [auto|]. split; [auto|]. constructor; [|constructor; [|auto]].
    + split; cbn [fst snd]; auto.
    + split; cbn [fst snd]; auto.
  - rewrite <- LR. destruct (length rest + length out <? nb); [|discriminate]. inversion E; subst. eexists. split; [reflexivity|].
    cbn [dfs_rel]. auto.
Qed.

Lemma dfs_ref j m cl : j < nb -> ref (dfs_CSC_CC nb j Gp Gi m cl) (dfs_BCSC_CC b2c c2b Lip Li nb j m cl).
Proof.
  intros Hj r E. unfold dfs_CSC_CC in E. unfold dfs_BCSC_CC. rewrite rd_ok by (apply (b2c_len nb b2c c2b Lip Li BK); lia). cbn [bind].
  destruct (while_ _ _ (dfs_step nb Gp Gi) _) as [[[[stk out] m'] cl']|] eqn:Ew in E; [|discriminate]. cbn [bind] in E. inversion E; subst.
  pose proof (sim_while dfs_rel (fun '(stk, _, _, _) => Ok (negb (length stk =? 0))) (fun '(stk, _, _, _) => Ok (negb (length stk =? 0)))
    (dfs_step nb Gp Gi) (dfs_step_b b2c c2b Lip Li nb)) as SW.
  edestruct SW as (t' & Et & Rt); [| |shelve|exact Ew|].
  - intros [[[s1 s2] s3] s4] [[[t1 t2] t3] t4] b (_ & _ & _ & F) Eb. apply F2_length in F. now rewrite <- F.
  - intros s s' t HR _ Hs. now apply (dfs_step_rel s).
  - rewrite Et. destruct t' as [[[t1 t2] t3] t4]. destruct Rt as (-> & -> & -> & _). reflexivity.
  Unshelve. split; [auto|]. split; [auto|]. split; [auto|]. constructor; [|constructor]. split; cbn [fst snd]; auto.
  split; [auto|]. pose proof (bk_inc _ _ _ _ _ BK j Hj). lia.
Qed.

(** * Breadth first search *)
Section Bfs.
Variables (n2p : list (option nat)) (G0 : nat -> bool).

Definition eqdeg (deg degb : list Z) (vis : list bool) (lists : list (list nat)) : Prop :=
  length deg = nb /\ length degb = nb /\ length vis = nb /\
  forall v, v < nb -> degb.[v] = deg.[v] \/ (vis.[v] = true /\ (G0 v = true \/ In v (concat lists))).

Definition bfs_rel (s sb : list nat * list Z * list bool * list (list nat)) : Prop :=
  let '(q, deg, vis, lists) := s in let '(qb, degb, visb, listsb) := sb in
  qb = q /\ visb = vis /\ listsb = lists /\ eqdeg deg degb vis lists.

Lemma in_concat_upd (lists : list (list nat)) c x v : c < length lists ->
  (In v (concat lists) -> In v (concat (upd lists c (lists.[c] ++ [x])))) /\ In x (concat (upd lists c (lists.[c] ++ [x]))).
Proof.
  intros Hc. split.
  - intros H. apply in_concat_aget in H. destruct H as (l & Hl & H). apply in_concat_aget. exists l. rewrite upd_length. split; [auto|].
    rewrite aget_upd by auto. destruct (Nat.eqb_spec l c) as [->|]; [|auto]. apply in_app_iff. auto.
  - apply in_concat_aget. exists c. rewrite upd_length. split; [auto|]. rewrite aget_upd_eq by auto. apply in_app_iff. right. now left.
Qed.

Lemma bfs_pop_rel s sb t : bfs_rel s sb -> bfs_pop Gp Gi n2p s = Ok t -> exists tb, bfs_pop_b b2c c2b Lip Li n2p sb = Ok tb /\ bfs_rel t tb.
Proof.
  destruct s as [[[q deg] vis] lists], sb as [[[qb degb] visb] listsb]. intros (-> & -> & -> & HD) E.
  destruct q as [|x q]; simpl in E |- *.
  { inversion E; subst. eexists. split; [reflexivity|]. simpl. auto. }
  destruct HD as (D1 & D2 & D3 & D4).
  destruct (wr vis x true) as [vis'|] eqn:Ev; [|discriminate]. cbn [bind] in *. destruct (wr_Ok _ _ _ _ Ev) as [Hx ->]; clear Ev.
  destruct (rd n2p x) as [[c|]|]; try discriminate. cbn [bind] in *.
  destruct (rd lists c) as [l|] eqn:El; [|discriminate]. cbn [bind] in *. destruct (rd_Ok _ _ _ El) as [Hc ->]; clear El.
  rewrite wr_ok in E |- * by auto. cbn [bind] in *. rewrite D3 in Hx.
  rewrite (head_ok nb b2c c2b Lip Li BK) by auto. rewrite rd_ok in E by (rewrite gp_len; lia). cbn [bind] in E. rewrite rd_ok in E by (rewrite gp_len; lia). cbn [bind] in E.
  pose proof (gp_S nb b2c c2b Lip Li x Hx) as HG. rewrite for_step in E by lia.
  destruct (gi_at nb b2c c2b Lip Li x 0 Hx ltac:(lia)) as [A1 A2]. rewrite Nat.add_0_r, aget_cons_0 in *.
  rewrite rd_ok in E by auto. rewrite A2 in E. cbn [bind] in E. rewrite rd_ok in E by lia. cbn [bind] in E. rewrite wr_ok in E by lia. cbn [bind] in E.
  rewrite rd_ok in E by (rewrite upd_length; lia). rewrite aget_upd_eq in E by lia. cbn [bind] in E.
  assert (E' : ('(queue, deg0) <- for_ (S Gp.[x]) Gp.[S x] (fun (r : nat) '(queue, deg0) =>
             cn <- rd Gi r ;; d <- rd deg0 cn ;; deg0 <- wr deg0 cn (d - 1)%Z ;;
             if (d - 1 =? 1)%Z then v <- rd (upd vis x true) cn ;; Ok (if v : bool then queue else queue ++ [cn], deg0) else Ok (queue, deg0))
             (q, upd deg x (deg.[x] - 1)%Z) ;;
          Ok (queue, deg0, upd vis x true, upd lists c (lists.[c] ++ [x]))) = Ok t).
  { destruct (deg.[x] - 1 =? 1)%Z; exact E. }
  clear E. rename E' into E.
  destruct (for_ (S Gp.[x]) Gp.[S x] _ _) as [[q' d']|] eqn:Ef in E; [|discriminate]. cbn [bind] in E. inversion E; subst t. clear E.
  set (vis' := upd vis x true) in *. set (lists' := upd lists c (lists.[c] ++ [x])) in *.
  edestruct (sim_for_shift (fun (a b : list nat * list Z) => fst b = fst a /\ eqdeg (snd a) (snd b) vis' lists') (S Gp.[x]) Gp.[S x] (low x) Lip.[b2c.[S x]]) as ([qb db] & Eb & Hq & HD').
  4:{ exact Ef. }
  4:{ cbn [fst snd] in *. subst qb. fold (low x). rewrite Eb. cbn [bind]. eexists. split; [reflexivity|]. cbn [bfs_rel]. auto. }
  - unfold bcnt in HG. pose proof (below_le nb b2c c2b Lip Li BK x Hx). lia.
  - intros i [q1 d1] [q1b d1b] t Hi (Eq & (F1 & F2 & F3 & F4)) Et. cbn [fst snd] in *. subst q1b.
    destruct (gi_at nb b2c c2b Lip Li x (S i) Hx ltac:(lia)) as [B1 B2]. rewrite <- Nat.add_succ_comm, aget_cons_S in *.
    destruct (brow_ok nb b2c c2b Lip Li BK x i Hx ltac:(lia)) as [C1 C2]. rewrite C1. cbn [bind].
    rewrite rd_ok in Et by auto. rewrite B2 in Et. cbn [bind] in Et. set (cn := (brows b2c c2b Lip Li x).[i]) in *.
    rewrite rd_ok in Et |- * by lia. cbn [bind] in *. rewrite wr_ok in Et |- * by lia. cbn [bind] in *.
    assert (EQ : eqdeg (upd d1 cn (d1.[cn] - 1)%Z) (upd d1b cn (d1b.[cn] - 1)%Z) vis' lists').
    { unfold eqdeg. rewrite !upd_length. splits; auto. intros v Hv. rewrite !aget_upd by lia. specialize (F4 v Hv).
      destruct (Nat.eqb_spec v cn) as [Ev|]; [|auto]. rewrite <- Ev. destruct F4 as [F4|F4]; [left; lia|auto]. }
    rewrite (rd_ok vis') in * by lia. cbn [bind] in *.
    destruct (F4 cn ltac:(lia)) as [F5|(F5 & _)].
    + rewrite F5 in *. destruct (d1.[cn] - 1 =? 1)%Z; inversion Et; subst; eexists; (split; [reflexivity|]); auto.
    + rewrite F5 in *. exists (q1, upd d1b cn (d1b.[cn] - 1)%Z). split; [destruct (d1b.[cn] - 1 =? 1)%Z; reflexivity|].
      destruct (d1.[cn] - 1 =? 1)%Z; inversion Et; subst; auto.
  - cbn [fst snd]. split; [reflexivity|]. unfold eqdeg. split; [now rewrite upd_length|]. split; [auto|]. split; [unfold vis'; now rewrite upd_length|]. unfold vis'. intros v Hv. rewrite !aget_upd by lia.
    destruct (in_concat_upd lists c x v Hc) as [U1 U2].
    destruct (Nat.eqb_spec v x) as [->|]; [right; auto|]. destruct (D4 v Hv) as [D5|(D5 & [D6|D6])]; auto.
Qed.

Lemma bfs_rel_wp deg degb vis lp ls a lists r : eqdeg deg degb vis lists ->
  modified_BFS_CSC nb Gp Gi deg vis n2p lp ls a lists = Ok r ->
  exists rb, modified_BFS_BCSC b2c c2b Lip Li nb degb vis n2p lp ls a lists = Ok rb /\
    let '(d, v, l) := r in let '(db, vb, lb) := rb in vb = v /\ lb = l /\ eqdeg d db v l.
Proof.
  intros HD E. unfold modified_BFS_CSC in E. unfold modified_BFS_BCSC.
  destruct (rd lp a) as [p|]; [|discriminate]. cbn [bind] in *. destruct (rd lp (S a)) as [q|]; [|discriminate]. cbn [bind] in *.
  eapply (sim_for (fun (r rb : list Z * list bool * list (list nat)) => let '(d, v, l) := r in let '(db, vb, lb) := rb in vb = v /\ lb = l /\ eqdeg d db v l)); [| |exact E]; [|exact (conj eq_refl (conj eq_refl HD))].
  intros i [[d v] l] [[db vb] lb] t Hi (-> & -> & HD') Et.
  destruct (rd ls i) as [cur|]; [|discriminate]. cbn [bind] in *.
  destruct (while_ _ _ (bfs_pop Gp Gi n2p) _) as [[[[q' d'] v'] l']|] eqn:Ew in Et; [|discriminate]. cbn [bind] in Et. inversion Et; subst t.
  edestruct (sim_while bfs_rel (fun '(queue, _, _, _) => Ok (negb (length queue =? 0))) (fun '(queue, _, _, _) => Ok (negb (length queue =? 0)))
    (bfs_pop Gp Gi n2p) (bfs_pop_b b2c c2b Lip Li n2p)) as (t' & Et' & Rt); [| |shelve|exact Ew|].
  - intros [[[s1 s2] s3] s4] [[[t1 t2] t3] t4] b0 (-> & _) Eb. exact Eb.
  - intros s s' t HR _ Hs. now apply (bfs_pop_rel s).
  - rewrite Et'. destruct t' as [[[t1 t2] t3] t4]. destruct Rt as (-> & -> & -> & R). cbn [bind]. eexists. split; [reflexivity|]. exact (conj eq_refl (conj eq_refl R)).
  Unshelve. exact (conj eq_refl (conj eq_refl (conj eq_refl HD'))).
Qed.
End Bfs.
End Blocks.
