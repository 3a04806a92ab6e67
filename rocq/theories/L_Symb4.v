(** Row and column counts: the theorem about the whole function. *)
From Coq Require Import ZifyBool ZifyNat.
From Verif Require Import Base Lib Lib2 Lib3 Spec SpecSym M_Tree M_Symb P_Tree P_Post P_TreeH L_Symb L_Symb2 L_Symb3.

Section Counts.
Variables (n : nat) (par : list Z) (post : list nat) (pos f : nat -> nat).
Hypothesis NF : numbered n par post pos f.
Notation sub := (sub pos f).
Notation lev := (lev n pos f).
Notation tsum := (tsum n pos f).
Notation cinv := (cinv n par pos f).
Notation hitb := (hitb pos f).
Notation term := (term par pos f).
Variables (Ap Ai : list nat).
Hypothesis LAp : n < length Ap.
Hypothesis MAp : forall x, x < n -> Ap.[x] <= Ap.[S x] /\ Ap.[S x] <= length Ai.
(** row [u] occurs in column [x] *)
Definition edg (x u : nat) : Prop := exists t, Ap.[x] <= t < Ap.[S x] /\ Ai.[t] = u.
Hypothesis BAi : forall x u, x < n -> edg x u -> u < n.
Hypothesis ANC : forall x u, x < n -> x < u -> edg x u -> sub x u = true.

Lemma initialize_wp k E st (Q : nat * cstate -> Prop) : k < n -> cinv k k E st ->
  (forall st', cinv (S k) k E st' -> length (sCol st') = length (sCol st) -> sRow st' = sRow st -> Q (post.[k], st')) -> wp (initialize_node k post par st) Q.
Proof.
  intros Hk (L1 & L2 & L3 & HSP & HE & HT & HU & HR) HQ. destruct (nf_len n par post pos f NF) as [LP LPo]. destruct (nf_post n par post pos f NF k Hk) as [P1 P2].
  unfold initialize_node. apply wp_bind. apply wp_rd; [lia|]. set (p := post.[k]) in *. apply wp_bind. apply wp_rd; [lia|]. apply wp_bind.
  assert (TE : forall j, j < n -> (zsum n (term (S k) E j) = zsum n (term k E j) - b2z (hasup par pos f p j))%Z).
  { intros j Hj. rewrite (zsum_diff n (term (S k) E j) (term k E j) p); auto.
    - unfold L_Symb3.term. rewrite P2. replace (k <? S k) with true by lia. replace (k <? k) with false by lia. cbn [andb b2z]. lia.
    - intros u Hu Hne. unfold L_Symb3.term. assert (pos u <> k). { intros E0. apply Hne. apply (nf_pos_inj n par post pos f NF); auto. lia. }
      replace (pos u <? S k) with (pos u <? k) by lia. reflexivity. }
  assert (HU' : forall v u, u < n -> S k <= pos u -> (upd (sNbr st) p v).[u] = (sNbr st).[u]).
  { intros v u Hu Hlt. apply aget_upd_ne. intros ->. lia. }
  assert (FIN : forall Col, length Col = length (sCol st) -> (forall j, j < n -> tsum Col j = (tsum (sCol st) j - b2z (hasup par pos f p j))%Z) ->
     wp (Nbr <- wr (sNbr st) p (Z.of_nat k) ;; Ok (p, mkCS Nbr Col (sLeaf st) (sRow st) (sSet st))) Q).
  { intros Col LC TC. apply wp_bind. apply wp_wr; [lia|]. cbn [wp]. apply HQ; auto. unfold L_Symb3.cinv. cbn [sNbr sCol sLeaf sRow sSet]. rewrite upd_length.
    split; [auto|]. split; [lia|]. split; [auto|]. split; [auto|]. split; [|split; [|split; [|auto]]].
    - intros x u Hx. destruct (HE x u Hx) as (? & ? & ? & ? & ?). splits; auto.
    - intros j Hj. rewrite TC, HT, TE by auto. reflexivity.
    - intros u Hu Hlt. rewrite HU' by auto. apply HU; auto. lia. }
  destruct (nf_up n par post pos f NF p P1) as [Er|(q & Eq & Q1 & Q2)].
  - rewrite Er. cbn [Z.eqb Pos.eqb wp]. apply FIN; auto. intros j Hj. unfold hasup. rewrite Er. cbn [Z.eqb Pos.eqb negb andb b2z]. lia.
  - rewrite Eq. replace (Z.of_nat q =? -1)%Z with false by lia. apply wp_bind. apply rdZ_wp; [lia|rewrite Nat2Z.id; lia|]. apply wrZ_wp; [lia|rewrite Nat2Z.id; lia|]. rewrite Nat2Z.id.
    apply FIN; [now rewrite upd_length|]. intros j Hj. rewrite (tsum_upd n pos f) by (auto; lia). unfold hasup. rewrite Eq, Nat2Z.id. replace (Z.of_nat q =? -1)%Z with false by lia. cbn [negb andb].
    destruct (sub q j); cbn [b2z]; lia.
Qed.

Lemma finalize_wp k E st (Q : cstate -> Prop) : k < n -> cinv (S k) k E st ->
  (forall st', cinv (S k) (S k) E st' -> length (sCol st') = length (sCol st) -> sRow st' = sRow st -> Q st') -> wp (finalize_node post.[k] par st) Q.
Proof.
  intros Hk (L1 & L2 & L3 & HSP & HE & HT & HU & HR) HQ. destruct (nf_len n par post pos f NF) as [LP LPo]. destruct (nf_post n par post pos f NF k Hk) as [P1 P2].
  unfold finalize_node. set (p := post.[k]) in *. apply wp_bind. apply wp_rd; [lia|]. apply wp_bind. destruct HSP as [SL SI].
  assert (NEk : forall s, s < n -> s <> p -> pos s <> k) by (intros s Hs Hne E0; apply Hne; apply (nf_pos_inj n par post pos f NF); auto; lia).
  assert (FIN : forall SP, spi n par pos f (S k) SP -> wp (Ok (mkCS (sNbr st) (sCol st) (sLeaf st) (sRow st) SP)) Q).
  { intros SP HSP'. cbn [wp]. apply HQ; auto. unfold L_Symb3.cinv. cbn [sNbr sCol sLeaf sRow sSet]. splits; auto. }
  destruct (nf_up n par post pos f NF p P1) as [Er|(q & Eq & Q1 & Q2)].
  - rewrite Er. cbn [Z.eqb Pos.eqb wp]. apply FIN. split; auto. intros s Hs. destruct (SI s Hs) as (S1 & S2 & S3 & S4 & S5). split; [auto|]. split; [auto|]. split; [intros; apply S3; lia|]. split.
    + intros Hps Hnr. assert (s <> p) by (intros ->; congruence). apply S4; auto. specialize (NEk s Hs H). lia.
    + intros x Hx K1 K2. specialize (S5 x Hx K1 K2). lia.
  - rewrite Eq. replace (Z.of_nat q =? -1)%Z with false by lia. rewrite Nat2Z.id. apply wp_wr; [lia|]. apply FIN. split; [rewrite upd_length; lia|].
    intros s Hs. destruct (Nat.eq_dec s p) as [->|Hne].
    + rewrite aget_upd_eq by lia. split; [auto|]. split; [now apply (sub_parent n par post pos f NF)|]. split; [lia|]. split; [lia|].
      intros x Hx K1 K2. rewrite (sub_step n par post pos f NF p x q) in K1 by auto. rewrite K2, orb_false_r in K1. assert (p = x) by lia. subst x. lia.
    + rewrite aget_upd_ne by auto. destruct (SI s Hs) as (S1 & S2 & S3 & S4 & S5). specialize (NEk s Hs Hne). split; [auto|]. split; [auto|]. split; [intros; apply S3; lia|]. split.
      * intros Hps Hnr. apply S4; auto. lia.
      * intros x Hx K1 K2. specialize (S5 x Hx K1 K2). lia.
Qed.

(** the edges of the first [k] nodes *)
Definition edges_upto (k : nat) (E : list (nat * nat)) : Prop := forall x u, In (x, u) E <-> x < n /\ pos x < k /\ x < u /\ edg x u.

Lemma main_loop_wp First Level st0 (Q : cstate -> Prop) : n <= length First -> n <= length Level ->
  (forall j, j < n -> First.[j] = Z.of_nat (f j) /\ Level.[j] = lev j) -> cinv 0 0 [] st0 ->
  (forall E st, cinv n n E st -> edges_upto n E -> length (sCol st) = length (sCol st0) -> (sRow st = None <-> sRow st0 = None) -> Q st) ->
  wp (for_ 0 n (fun k st =>
      '(j, st) <- initialize_node k post par st ;;
      b <- rd Ap j ;; e <- rd Ap (S j) ;;
      st <- for_ b e (fun p st => i <- rd Ai p ;; if j <? i then process_edge n j i k First Level st else Ok st) st ;;
      finalize_node j par st) st0) Q.
Proof.
  intros LF LL HFL H0 HQ.
  apply wp_for with (I := fun k st => exists E, cinv k k E st /\ edges_upto k E /\ length (sCol st) = length (sCol st0) /\ (sRow st = None <-> sRow st0 = None)).
  - lia.
  - exists []. splits; auto; try tauto. intros x u. split; [intros []|lia].
  - intros k st Hk (E & HC & HE & HL & HN). apply wp_bind. apply (initialize_wp k E st); auto; [lia|]. intros st1 C1 LC1 R1.
    destruct (nf_post n par post pos f NF k ltac:(lia)) as [P1 P2]. set (j := post.[k]) in *. destruct (MAp j P1) as [M1 M2].
    apply wp_bind. apply wp_rd; [lia|]. apply wp_bind. apply wp_rd; [lia|]. apply wp_bind.
    apply wp_for with (I := fun t st => exists E', cinv (S k) k E' st /\ length (sCol st) = length (sCol st0) /\ (sRow st = None <-> sRow st0 = None) /\
       (forall x u, In (x, u) E' <-> In (x, u) E \/ (x = j /\ j < u /\ exists s, Ap.[j] <= s < t /\ Ai.[s] = u))).
    + lia.
    + exists E. split; [auto|]. split; [congruence|]. split; [rewrite R1; tauto|]. intros x u. split; auto. intros [H|(_ & _ & s & Hs & _)]; [auto|lia].
    + intros t st' Ht (E' & D1 & D2 & D3 & D4). apply wp_bind. apply wp_rd; [lia|].
      assert (HU : edg j Ai.[t]) by (exists t; split; auto; lia).
      destruct (j <? Ai.[t]) eqn:EJ.
      * apply (process_edge_wp n par post pos f NF j Ai.[t] k First Level E'); auto; try lia; [now apply (BAi j)|apply ANC; auto; lia|].
        intros st2 F1 F2 F3 F4. exists (E' ++ [(j, Ai.[t])]). splits; auto; try congruence; try tauto. intros x u. rewrite in_app_iff, D4. cbn [In]. split.
        -- intros [[H|(H1 & H2 & s & H3 & H4)]|[H|[]]]; auto; [right; splits; auto; exists s; split; auto; lia|]. inversion H as [[K1 K2]]. right. splits; auto; [lia|]. exists t. split; auto. lia.
        -- intros [H|(H1 & H2 & s & H3 & H4)]; auto. destruct (Nat.eq_dec s t) as [->|]; [right; left; now rewrite H1, H4|]. left. right. splits; auto. exists s. split; auto. lia.
      * cbn [wp]. exists E'. splits; auto; try tauto. intros x u. rewrite D4. split.
        -- intros [H|(H1 & H2 & s & H3 & H4)]; auto. right. splits; auto. exists s. split; auto. lia.
        -- intros [H|(H1 & H2 & s & H3 & H4)]; auto. right. splits; auto. exists s. split; auto. assert (s <> t); [|lia]. intros ->. lia.
    + intros st' (E' & D1 & D2 & D3 & D4). apply (finalize_wp k E' st'); auto; [lia|]. intros st2 F1 F2 F3. exists E'. split; [auto|]. split; [|split; [congruence|rewrite F3; tauto]].
      intros x u. rewrite D4, (HE x u). split.
      * intros [(H1 & H2 & H3 & H4)|(-> & H2 & s & H3 & H4)]; [splits; auto; lia|]. splits; auto; [lia|exists s; auto].
      * intros (H1 & H2 & H3 & H4). destruct (Nat.eq_dec (pos x) k) as [Ek|]; [|left; splits; auto; lia].
        right. assert (x = j) by (apply (nf_pos_inj n par post pos f NF); auto; lia). subst x. splits; auto.
  - intros st (E & HC & HE & HL & HN). apply (HQ E); auto.
Qed.

(** the accumulation over the tree *)
Lemma accumulate_wp C0 (Q : list Z -> Prop) : n <= length C0 ->
  (forall C, length C = length C0 -> (forall j, j < n -> C.[j] = tsum C0 j) -> Q C) ->
  wp (for_ 0 n (fun j Col =>
      parent <- rd par j ;;
      if (parent =? -1)%Z then Ok Col
      else a <- rdZ Col parent ;; b <- rd Col j ;; wrZ Col parent (a + b)%Z) C0) Q.
Proof.
  intros HL HQ. destruct (nf_len n par post pos f NF) as [LP _].
  apply wp_for with (I := fun t C => length C = length C0 /\ forall j, j < n -> C.[j] = (C0.[j] + zsum t (fun c => if (par.[c] =? Z.of_nat j)%Z then tsum C0 c else 0%Z))%Z).
  - lia.
  - split; auto. intros j Hj. cbn [zsum]. lia.
  - intros t C Ht (I1 & I2). apply wp_bind. apply wp_rd; [lia|].
    assert (Et : C.[t] = tsum C0 t).
    { rewrite I2 by lia. rewrite (tsum_rec n par post pos f NF) by lia. f_equal. symmetry. apply zsum_trunc; [lia|]. intros c Hc.
      destruct (nf_up n par post pos f NF c ltac:(lia)) as [E|(q & E & Hq)]; rewrite E; [now replace (-1 =? Z.of_nat t)%Z with false by lia|now replace (Z.of_nat q =? Z.of_nat t)%Z with false by lia]. }
    destruct (nf_up n par post pos f NF t ltac:(lia)) as [Er|(q & Eq & Q1 & Q2)].
    + rewrite Er. cbn [Z.eqb Pos.eqb wp]. split; auto. intros j Hj. rewrite I2 by auto. cbn [zsum]. rewrite Er. replace (-1 =? Z.of_nat j)%Z with false by lia. lia.
    + rewrite Eq. replace (Z.of_nat q =? -1)%Z with false by lia. apply wp_bind. apply rdZ_wp; [lia|rewrite Nat2Z.id; lia|]. apply wp_bind. apply wp_rd; [lia|]. apply wrZ_wp; [lia|rewrite Nat2Z.id; lia|].
      rewrite !Nat2Z.id. rewrite upd_length. split; auto. intros j Hj. cbn [zsum]. rewrite Eq. destruct (Nat.eq_dec j q) as [->|Hne].
      * rewrite aget_upd_eq by lia. rewrite Z.eqb_refl, I2, Et by auto. lia.
      * rewrite aget_upd_ne by auto. rewrite I2 by auto. replace (Z.of_nat q =? Z.of_nat j)%Z with false by lia. lia.
  - intros C (I1 & I2). apply HQ; auto. intros j Hj. rewrite I2, (tsum_rec n par post pos f NF) by auto. reflexivity.
Qed.

(** every child of [u] has a descendant with an edge to [u] *)
Hypothesis BELOW : forall c u, c < n -> u < n -> par.[c] = Z.of_nat u -> exists x, x < n /\ x < u /\ sub x c = true /\ edg x u.

(** the claim: column [j] has an entry in row [u] *)
Definition inT (E : list (nat * nat)) (u j : nat) : bool := (u =? j) || hitrow pos f E u j.

Lemma term_value E u j : edges_upto n E -> u < n -> j < n -> term n E j u = b2z (inT E u j).
Proof.
  intros HE Hu Hj. destruct (nf_pos n par post pos f NF u Hu) as [P1 _]. unfold L_Symb3.term. replace (pos u <? n) with true by lia. cbn [andb].
  assert (HUP : hasup par pos f u j = sub u j && negb (u =? j)).
  { unfold hasup. destruct (nf_up n par post pos f NF u Hu) as [Er|(q & Eq & Q1 & Q2)].
    - rewrite Er. cbn [Z.eqb Pos.eqb negb andb]. rewrite (sub_root n par post pos f NF u j) by auto. now rewrite andb_negb_r.
    - rewrite Eq, Nat2Z.id. replace (Z.of_nat q =? -1)%Z with false by lia. cbn [negb andb]. rewrite (sub_step n par post pos f NF u j q) by auto.
      destruct (u =? j) eqn:Ej; cbn [orb negb]; [|now rewrite andb_true_r]. assert (u = j) by lia. subst j. rewrite (sub_not_parent n par post pos f NF u q); auto. }
  rewrite HUP. unfold inT, hitrow. rewrite (Nat.eqb_sym j u).
  assert (HX : forall x, In (x, u) E -> x < n /\ sub x u = true /\ x <> u). { intros x Hx. apply HE in Hx. destruct Hx as (X1 & X2 & X3 & X4). split; [auto|]. split; [now apply ANC|lia]. }
  unfold isleaf. destruct (f u =? pos u) eqn:EL.
  - assert (NE : forall x, ~ In (x, u) E).
    { intros x Hx. destruct (HX x Hx) as (X1 & X2 & X3). apply X3. apply (nf_pos_inj n par post pos f NF); auto. unfold L_Symb.sub in X2. lia. }
    assert (NH : hitb E u j = false) by (destruct (hitb E u j) eqn:EH; auto; apply hitb_iff in EH; destruct EH as (x & X1 & _); now apply NE in X1).
    rewrite NH. cbn [andb b2z]. destruct (u =? j) eqn:Ej; cbn [orb negb andb b2z].
    + assert (u = j) by lia. subst j. rewrite (sub_refl n par post pos f NF u Hu). reflexivity.
    + rewrite andb_true_r. destruct (sub u j); reflexivity.
  - cbn [andb b2z].
    assert (EX : exists x, In (x, u) E).
    { destruct (f_attained n par post pos f NF u Hu) as [F1 F2]. destruct (nf_post n par post pos f NF (f u) F1) as [G1 G2]. set (d := post.[f u]) in *.
      assert (Hdu : d <> u) by (intros E0; rewrite E0 in G2; lia). apply (nf_sub n par post pos f NF) in F2; auto.
      assert (G : exists c, c < n /\ par.[c] = Z.of_nat u).
      { clear -F2 Hdu G1 Hu. induction F2 as [|a b v E0 Hb H IH]; [easy|]. destruct (Nat.eq_dec b v) as [->|Hne]; [eauto|]. apply IH; auto. }
      destruct G as (c & C1 & C2). destruct (BELOW c u C1 Hu C2) as (x & X1 & X2 & X3 & X4). exists x. apply HE. splits; auto. now apply (nf_pos n par post pos f NF). }
    destruct EX as (x0 & Hx0). destruct (HX x0 Hx0) as (X1 & X2 & X3). destruct (sub u j) eqn:Euj.
    + assert (HH : hitb E u j = true) by (apply hitb_iff; exists x0; split; auto; apply (sub_trans n par post pos f NF x0 u j); auto). rewrite HH. cbn [andb b2z].
      destruct (u =? j) eqn:Ej; cbn [orb negb andb b2z]; auto. destruct (sub j u) eqn:Eju; auto. assert (u = j) by now apply (sub_antisym n par post pos f NF). lia.
    + assert (u <> j) by (intros ->; rewrite (sub_refl n par post pos f NF) in Euj by auto; discriminate). replace (u =? j) with false by lia. cbn [orb negb andb b2z].
      destruct (hitb E u j) eqn:EH; cbn [andb b2z]; auto. apply hitb_iff in EH. destruct EH as (x & Y1 & Y2). destruct (HX x Y1) as (Y3 & Y4 & Y5).
      destruct (sub_comparable n par post pos f NF x u j Y3 Hu Hj Y4 Y2) as [K|K]; [congruence|]. now rewrite K.
Qed.

Theorem row_col_counts_wp stype RC CC F0 L0 (Q : bool * (option (list Z) * list Z * list Z * list Z) -> Prop) :
  (stype < 0)%Z -> (forall R, RC = Some R -> n <= length R) -> n <= length CC -> n <= length F0 -> n <= length L0 ->
  (forall E RC' CC' F L, edges_upto n E -> length CC' = length CC -> (RC' = None <-> RC = None) ->
     (forall j, j < n -> CC'.[j] = zsum n (fun u => b2z (inT E u j))) ->
     (forall R, RC' = Some R -> forall u, u < n -> R.[u] = zsum n (fun j => b2z (inT E u j))) ->
     (forall j, j < n -> F.[j] = Z.of_nat (f j) /\ L.[j] = lev j) -> Q (true, (RC', CC', F, L))) ->
  wp (row_col_counts_symmetric n Ap Ai stype par post RC CC F0 L0) Q.
Proof.
  intros Hst LR LC LF LL HQ. unfold row_col_counts_symmetric. replace (0 <=? stype)%Z with false by lia. destruct (nf_len n par post pos f NF) as [LP LPo].
  apply wp_bind. apply (first_levels_wp n par post pos f NF); auto. intros C F L E1 E2 E3 HV. apply wp_bind.
  assert (GR : wp (match RC with None => Ok None | Some R => R <- for_ 0 n (fun i R => wr R i 1%Z) R ;; Ok (Some R) end)
     (fun RC' => (RC' = None <-> RC = None) /\ forall R, RC' = Some R -> n <= length R /\ forall u, u < n -> R.[u] = 1%Z)).
  { destruct RC as [R|]; [|cbn [wp]; split; [tauto|intros; discriminate]]. specialize (LR R eq_refl). apply wp_bind.
    apply wp_for with (I := fun k X => n <= length X /\ forall x, x < k -> X.[x] = 1%Z); [lia|split; [auto|lia]| |].
    - intros k X Hk (I1 & I2). apply wp_wr; [lia|]. rewrite upd_length. split; auto. intros x Hx. destruct (Nat.eq_dec x k) as [->|]; [now rewrite aget_upd_eq by lia|]. rewrite aget_upd_ne by auto. apply I2. lia.
    - intros X (I1 & I2). cbn [wp]. split; [split; intros; discriminate|]. intros R0 E0. inversion E0; subst. auto. }
  eapply wp_mono; [exact GR|]. clear GR. intros RC' (RN & RV). apply wp_bind.
  apply wp_for with (I := fun k '(PL, PN, SP) => length PL = n /\ length PN = n /\ length SP = n /\ forall x, x < k -> PL.[x] = (-1)%Z /\ PN.[x] = (-1)%Z /\ SP.[x] = x).
  { lia. }
  { rewrite !repeat_length. splits; auto. lia. }
  { intros k [[PL PN] SP] Hk (I1 & I2 & I3 & I4). apply wp_bind. apply wp_wr; [lia|]. apply wp_bind. apply wp_wr; [lia|]. apply wp_bind. apply wp_wr; [lia|]. cbn [wp]. rewrite !upd_length. split; [auto|]. split; [auto|]. split; [auto|].
    intros x Hx. destruct (Nat.eq_dec x k) as [->|]; [now rewrite !aget_upd_eq by lia|]. rewrite !aget_upd_ne by auto. apply I4. lia. }
  intros [[PL PN] SP] (I1 & I2 & I3 & I4). apply wp_bind.
  apply (main_loop_wp F L); try lia.
  - intros j Hj. split; apply HV; auto.
  - unfold L_Symb3.cinv. cbn [sNbr sCol sLeaf sRow sSet]. split; [lia|]. split; [lia|]. split; [lia|]. split; [|split; [|split; [|split]]].
    + split; [lia|]. intros s Hs. destruct (I4 s Hs) as (_ & _ & ->). split; [auto|]. split; [now apply (sub_refl n par post pos f NF)|]. split; [auto|]. split; [lia|]. intros x Hx K1 K2. congruence.
    + intros x u [].
    + intros j Hj. unfold L_Symb.tsum. apply zsum_ext. intros u Hu. destruct (HV u Hu) as (_ & _ & ->). unfold L_Symb3.term, isleaf. cbn [Nat.ltb Nat.leb andb hitb L_Symb3.hitb existsb b2z].
      replace (pos u <? 0) with false by lia. cbn [andb b2z]. destruct (sub u j), (f u =? pos u); reflexivity.
    + intros u Hu _. left. destruct (I4 u Hu) as (J1 & J2 & _). splits; auto.
    + intros R ER. destruct (RV R ER) as [V1 V2]. split; auto. intros u Hu. rewrite V2 by auto. rewrite zsum_zero; [reflexivity|]. intros j Hj. unfold hitrow. cbn [L_Symb3.hitb existsb]. rewrite andb_false_r. reflexivity.
  - cbn [sCol sRow]. intros E st HC HE HL HN. destruct HC as (C1 & C2 & C3 & C4 & C5 & C6 & C7 & C8). apply wp_bind. apply (accumulate_wp (sCol st)); auto. intros C' LC' VC'. cbn [wp].
    apply (HQ E); auto.
    + congruence.
    + tauto.
    + intros j Hj. rewrite VC', C6 by auto. apply zsum_ext. intros u Hu. now apply term_value.
    + intros R ER u Hu. destruct (C8 R ER) as [_ ->]; auto. rewrite (zsum_diff n (fun j => b2z (inT E u j)) (fun j => b2z (hitrow pos f E u j)) u); auto.
      * unfold inT, hitrow. rewrite Nat.eqb_refl. cbn [orb negb andb b2z]. lia.
      * intros j Hj Hne. unfold inT. replace (u =? j) with false by lia. reflexivity.
    + intros j Hj. split; apply HV; auto.
Qed.

Lemma inT_iff E u j : edges_upto n E -> u < n -> j < n -> (inT E u j = true <-> u = j \/ (j < u /\ desc n par j u /\ exists x, x < n /\ x < u /\ desc n par x j /\ edg x u)).
Proof.
  intros HE Hu Hj. unfold inT, hitrow. rewrite orb_true_iff, !andb_true_iff, negb_true_iff, hitb_iff. split.
  - intros [H|[[H1 (x & X1 & X2)] H2]]; [left; lia|]. apply HE in X1. destruct X1 as (Y1 & Y2 & Y3 & Y4). right.
    assert (j <= u) by now apply (sub_lt n par post pos f NF). split; [lia|]. split; [now apply (nf_sub n par post pos f NF)|]. exists x. splits; auto. now apply (nf_sub n par post pos f NF).
  - intros [->|(H1 & H2 & x & X1 & X2 & X3 & X4)]; [left; lia|]. right. splits; [lia| |now apply (nf_sub n par post pos f NF)].
    exists x. split; [|now apply (nf_sub n par post pos f NF)]. apply HE. splits; auto. now apply (nf_pos n par post pos f NF).
Qed.
End Counts.
