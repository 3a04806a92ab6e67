(** The main loop of the row and column counts (lfactor_creation.cpp 257-305). *)
From Coq Require Import ZifyBool ZifyNat.
From Verif Require Import Base Lib Lib2 Lib3 Spec SpecSym M_Tree M_Symb P_Tree P_Post P_TreeH L_Symb L_Symb2.

Section Main.
Variables (n : nat) (par : list Z) (post : list nat) (pos f : nat -> nat).
Hypothesis NF : numbered n par post pos f.
Notation sub := (sub pos f).
Notation lev := (lev n pos f).
Notation tsum := (tsum n pos f).

(** * The union-find structure *)
Definition spi (k : nat) (SP : list nat) : Prop :=
  n <= length SP /\ forall s, s < n -> SP.[s] < n /\ sub s SP.[s] = true /\ (k <= pos s -> SP.[s] = s) /\
    (pos s < k -> par.[s] <> (-1)%Z -> SP.[s] <> s) /\ (forall x, x < n -> sub s x = true -> sub SP.[s] x = false -> pos x < k).

(** [q] is the first ancestor of [s] with a number of at least [k] *)
Definition isroot (k s q : nat) : Prop :=
  q < n /\ sub s q = true /\ k <= pos q /\ (forall x, x < n -> sub s x = true -> sub q x = false -> pos x < k).

Lemma find_root_wp k SP s u (Q : nat -> Prop) : spi k SP -> s < n -> u < n -> sub s u = true -> k <= pos u ->
  (forall q, isroot k s q -> Q q) -> wp (find_root n SP s) Q.
Proof.
  intros (SL & SI) Hs Hu Hsu Hk HQ. unfold find_root.
  apply wp_while with (I := fun q => q < n /\ sub s q = true /\ (forall x, x < n -> sub s x = true -> sub q x = false -> pos x < k)) (m := fun q => n - q).
  - splits; auto; [now apply (sub_refl n par post pos f NF)|]. intros x Hx H1 H2. congruence.
  - lia.
  - intros q (Hq & H1 & H2). destruct (SI q Hq) as (S1 & S2 & S3 & S4 & S5). apply wp_bind. apply wp_rd; [lia|]. cbn [wp].
    destruct (q =? SP.[q]) eqn:Eq; cbn [negb].
    + apply HQ. unfold isroot. splits; auto. destruct (le_lt_dec k (pos q)) as [|Lk]; auto. exfalso.
      destruct (Z.eq_dec par.[q] (-1)) as [Er|Er]; [|apply (S4 Lk Er); lia]. destruct (sub q u) eqn:Equ.
      * rewrite (sub_root n par post pos f NF q u) in Equ by auto. assert (q = u) by lia. subst. lia.
      * specialize (H2 u Hu Hsu Equ). lia.
    + apply wp_rd; [lia|]. assert (Hlt : q <= SP.[q]) by (apply (sub_lt n par post pos f NF); auto). split; [|lia]. splits; auto.
      * apply (sub_trans n par post pos f NF s q); auto.
      * intros x Hx K1 K2. destruct (sub q x) eqn:E; [apply S5; auto|apply H2; auto].
Qed.

Lemma compress_wp k SP s q (Q : list nat -> Prop) : spi k SP -> s < n -> isroot k s q ->
  (forall SP', length SP' = length SP -> spi k SP' -> Q SP') -> wp (compress n q s SP) Q.
Proof.
  intros HSP Hs Hr HQ. unfold compress. apply wp_bind.
  apply wp_while with (I := fun '(x, SP') => length SP' = length SP /\ spi k SP' /\ x < n /\ isroot k x q) (m := fun '(x, _) => n - x).
  - splits; auto.
  - lia.
  - intros [x SP'] (L1 & (L2 & SI) & Hx & (Hq & R1 & R2 & R3)). cbn [wp]. destruct (x =? q) eqn:Exq; cbn [negb].
    + cbn [wp snd]. apply HQ; auto. split; auto.
    + destruct (SI x Hx) as (S1 & S2 & S3 & S4 & S5). apply wp_bind. apply wp_rd; [lia|]. apply wp_bind. apply wp_wr; [lia|]. cbn [wp].
      assert (Hpx : pos x < k). { apply R3; auto; [now apply (sub_refl n par post pos f NF)|]. destruct (sub q x) eqn:E; auto. assert (q = x) by now apply (sub_antisym n par post pos f NF). lia. }
      assert (Hnr : par.[x] <> (-1)%Z). { intros E. rewrite (sub_root n par post pos f NF x q) in R1 by auto. lia. }
      assert (Hne := S4 Hpx Hnr). assert (Hle : x <= SP'.[x]) by (apply (sub_lt n par post pos f NF); auto).
      split; [|lia]. rewrite upd_length. splits; auto.
      * split; [rewrite upd_length; lia|]. intros s' Hs'. destruct (Nat.eq_dec s' x) as [->|Hn].
        -- rewrite aget_upd_eq by lia. splits; auto; intros; lia.
        -- rewrite aget_upd_ne by auto. now apply SI.
      * unfold isroot. splits; auto.
        -- destruct (sub SP'.[x] q) eqn:E; auto. specialize (S5 q Hq R1 E). lia.
        -- intros y Hy K1 K2. apply R3; auto. apply (sub_trans n par post pos f NF x SP'.[x]); auto.
Qed.

(** * Hits *)
Definition hitb (E : list (nat * nat)) (u j : nat) : bool := existsb (fun '(x, v) => (v =? u) && sub x j) E.

Lemma hitb_iff E u j : hitb E u j = true <-> exists x, In (x, u) E /\ sub x j = true.
Proof.
  unfold hitb. rewrite existsb_exists. split.
  - intros ([x v] & H1 & H2). apply andb_true_iff in H2. destruct H2 as [H2 H3]. exists x. assert (v = u) by lia. now subst.
  - intros (x & H1 & H2). exists (x, u). split; auto. rewrite H2. lia.
Qed.
Lemma hitb_snoc E p v u j : hitb (E ++ [(p, v)]) u j = hitb E u j || ((v =? u) && sub p j).
Proof. unfold hitb. rewrite existsb_app. cbn [existsb]. now rewrite orb_false_r. Qed.

Definition isleaf (u : nat) : bool := f u =? pos u.
Definition hasup (u j : nat) : bool := negb (par.[u] =? -1)%Z && sub (Z.to_nat par.[u]) j.
Definition term (ki : nat) (E : list (nat * nat)) (j u : nat) : Z :=
  (b2z (isleaf u && sub u j) + b2z (hitb E u j) - b2z ((pos u <? ki)%nat && hasup u j))%Z.

Definition hitrow (E : list (nat * nat)) (u j : nat) : bool := negb (j =? u) && hitb E u j && sub j u.

Definition cinv (ki kf : nat) (E : list (nat * nat)) (st : cstate) : Prop :=
  n <= length (sNbr st) /\ n <= length (sCol st) /\ n <= length (sLeaf st) /\ spi kf (sSet st) /\
  (forall x u, In (x, u) E -> x < n /\ u < n /\ x <> u /\ sub x u = true /\ pos x < ki) /\
  (forall j, j < n -> tsum (sCol st) j = zsum n (term ki E j)) /\
  (forall u, u < n -> ki <= pos u ->
     ((sNbr st).[u] = (-1)%Z /\ (sLeaf st).[u] = (-1)%Z /\ (forall x, ~ In (x, u) E)) \/
     (exists i s, (sNbr st).[u] = Z.of_nat (pos i) /\ (sLeaf st).[u] = Z.of_nat s /\ In (i, u) E /\ In (s, u) E /\ sub s i = true /\ (forall x, In (x, u) E -> pos x <= pos i))) /\
  (forall R, sRow st = Some R -> n <= length R /\ forall u, u < n -> R.[u] = (1 + zsum n (fun j => b2z (hitrow E u j)))%Z).

Lemma process_edge_wp p u k First Level E st (Q : cstate -> Prop) : cinv (S k) k E st -> p < n -> pos p = k -> u < n -> p <> u -> sub p u = true ->
  n <= length First -> n <= length Level -> (forall j, j < n -> First.[j] = Z.of_nat (f j) /\ Level.[j] = lev j) ->
  (forall st', cinv (S k) k (E ++ [(p, u)]) st' -> length (sCol st') = length (sCol st) -> (sRow st' = None <-> sRow st = None) ->
     (forall R R', sRow st = Some R -> sRow st' = Some R' -> length R' = length R) -> Q st') ->
  wp (process_edge n p u k First Level st) Q.
Proof.
  intros (L1 & L2 & L3 & HSP & HE & HT & HU & HR) Hp Hpk Hu Hne Hpu LF LL HFL HQ. unfold process_edge.
  assert (Hpos : k < pos u). { pose proof (sub_le pos f p u Hpu). assert (pos p <> pos u); [|lia]. intros EE. apply Hne. now apply (nf_pos_inj n par post pos f NF). }
  destruct (HFL p Hp) as [EF EL]. apply wp_bind. apply wp_rd; [lia|]. apply wp_bind. apply wp_rd; [lia|]. rewrite EF. apply wp_bind.
  assert (HE' : forall x u', In (x, u') (E ++ [(p, u)]) -> x < n /\ u' < n /\ x <> u' /\ sub x u' = true /\ pos x < S k).
  { intros x u' H. apply in_app_iff in H. destruct H as [H|[H|[]]]; [now apply HE|]. inversion H; subst. splits; auto; lia. }
  destruct ((sNbr st).[u] <? Z.of_nat (f p))%Z eqn:Elt.
  - (* leaf *)
    apply wp_bind. apply wp_rd; [lia|]. apply wp_bind. apply wp_wr; [lia|]. apply wp_bind. apply wp_rd; [lia|]. apply wp_bind.
    set (Col1 := upd (sCol st) p ((sCol st).[p] + 1)%Z).
    assert (LC1 : length Col1 = length (sCol st)) by apply upd_length.
    assert (TC1 : forall j, j < n -> tsum Col1 j = (tsum (sCol st) j + b2z (sub p j))%Z).
    { intros j Hj. unfold Col1. rewrite (tsum_upd n pos f) by (auto; lia). destruct (sub p j); cbn [b2z]; lia. }
    assert (G : wp (if ((sLeaf st).[u] =? -1)%Z then Ok (u, Col1, sSet st)
                    else q <- find_root n (sSet st) (Z.to_nat (sLeaf st).[u]) ;; SP <- compress n q (Z.to_nat (sLeaf st).[u]) (sSet st) ;;
                         c <- rd Col1 q ;; Col <- wr Col1 q (c - 1)%Z ;; Ok (q, Col, SP))
              (fun '(q, Col, SP) => q < n /\ sub p q = true /\ length Col = length (sCol st) /\ spi k SP /\
                 (forall j, j < n -> tsum Col j = (tsum (sCol st) j + b2z (sub p j && negb (hitb E u j)))%Z) /\
                 (forall j, j < n -> sub p j && negb (sub q j) = negb (j =? u) && sub j u && sub p j && negb (hitb E u j)))).
    { destruct (HU u Hu ltac:(lia)) as [(N1 & N2 & N3)|(i & s & N1 & N2 & N3 & N4 & N5 & N6)].
      - rewrite N2. cbn [Z.eqb Pos.eqb wp].
        assert (NH : forall j, hitb E u j = false) by (intros j; destruct (hitb E u j) eqn:EH; auto; apply hitb_iff in EH; destruct EH as (x & X1 & _); now apply N3 in X1).
        split; [auto|]. split; [auto|]. split; [auto|]. split; [auto|]. split.
        + intros j Hj. rewrite TC1, NH by auto. cbn [negb]. now rewrite andb_true_r.
        + intros j Hj. rewrite NH. cbn [negb]. rewrite andb_true_r. apply eq_true_iff_eq. rewrite !andb_true_iff, !negb_true_iff. split.
          * intros [K1 K2]. assert (K3 : sub j u = true) by (destruct (sub_comparable n par post pos f NF p u j Hp Hu Hj Hpu K1); congruence).
            splits; auto. apply Nat.eqb_neq. intros ->. rewrite (sub_refl n par post pos f NF u Hu) in K2. discriminate.
          * intros [[K1 K2] K3]. split; auto. destruct (sub u j) eqn:K4; auto. exfalso. apply Nat.eqb_neq in K1. apply K1. now apply (sub_antisym n par post pos f NF).
      - rewrite N2. replace (Z.of_nat s =? -1)%Z with false by lia. rewrite Nat2Z.id.
        destruct (HE i u N3) as (Bi & _ & _ & Siu & Pi). destruct (HE s u N4) as (Bs & _ & _ & Ssu & Ps).
        apply wp_bind. apply (find_root_wp k (sSet st) s u); auto; [lia|]. intros q Hroot.
        assert (Hroot2 := Hroot). destruct Hroot2 as (Hq & R1 & R2 & R3).
        apply wp_bind. apply (compress_wp k (sSet st) s q); auto. intros SP' LSP' HSP'.
        apply wp_bind. apply wp_rd; [lia|]. apply wp_bind. apply wp_wr; [lia|]. cbn [wp].
        pose proof (sub_le pos f s i N5) as Psi.
        assert (Hpq : sub p q = true) by (unfold L_Symb.sub in R1 |- *; pose proof (f_le n par post pos f NF p Hp); lia).
        assert (Hqu : sub q u = true) by (destruct (sub q u) eqn:EQ; auto; specialize (R3 u Hu Ssu EQ); clear -R3 Hpos; lia).
        assert (HH : forall j, j < n -> sub p j = true -> hitb E u j = sub q j).
        { intros j Hj Hpj. apply eq_true_iff_eq. rewrite hitb_iff. split.
          - intros (x & X1 & X2). pose proof (N6 x X1) as PX. pose proof (sub_le pos f p j Hpj) as PJ.
            assert (Sij : sub i j = true) by (unfold L_Symb.sub in X2 |- *; pose proof (f_le n par post pos f NF p Hp); clear -X2 PX PJ H Elt N1 Hpk; lia).
            assert (Ssj : sub s j = true) by (apply (sub_trans n par post pos f NF s i j); auto).
            destruct (sub q j) eqn:Eqj; auto. specialize (R3 j Hj Ssj Eqj). clear -R3 PJ Hpk. lia.
          - intros Hqj. exists s. split; auto. apply (sub_trans n par post pos f NF s q j); auto. }
        split; [auto|]. split; [auto|]. split; [rewrite upd_length; auto|]. split; [auto|]. split.
        + intros j Hj. rewrite (tsum_upd n pos f) by (auto; lia). rewrite TC1 by auto. destruct (sub p j) eqn:Epj.
          * rewrite (HH j Hj Epj). destruct (sub q j); cbn [b2z andb negb]; clear; lia.
          * destruct (sub q j) eqn:Eqj; [rewrite (sub_trans n par post pos f NF p q j) in Epj by auto; discriminate|cbn [b2z andb]; clear; lia].
        + intros j Hj. destruct (sub p j) eqn:Epj; [|cbn [andb]; rewrite andb_false_r; reflexivity]. rewrite (HH j Hj Epj). cbn [andb]. rewrite andb_true_r.
          destruct (sub q j) eqn:Eqj; cbn [negb]; [now rewrite andb_false_r|rewrite andb_true_r]. symmetry. apply andb_true_iff. split.
          * apply negb_true_iff, Nat.eqb_neq. intros ->. congruence.
          * destruct (sub_comparable n par post pos f NF p u j Hp Hu Hj Hpu Epj) as [K|K]; auto. rewrite (sub_trans n par post pos f NF q u j) in Eqj by auto. discriminate. }
    eapply wp_mono; [exact G|]. clear G TC1. intros [[q Col] SP] (Hq & Hpq & LCol & HSP' & TC & RW). clearbody Col1.
    destruct (HFL q Hq) as [_ ELq]. apply wp_bind.
    assert (GR : wp (match sRow st with None => Ok None | Some R => x <- rd R u ;; lp <- rd Level p ;; lq <- rd Level q ;; R <- wr R u (x + (lp - lq))%Z ;; Ok (Some R) end)
        (fun Row => (Row = None <-> sRow st = None) /\ (forall R R', sRow st = Some R -> Row = Some R' -> length R' = length R) /\
           forall R, Row = Some R -> n <= length R /\ forall v, v < n -> R.[v] = (1 + zsum n (fun j => b2z (hitrow (E ++ [(p, u)]) v j)))%Z)).
    { destruct (sRow st) as [R|] eqn:ER; [|cbn [wp]; splits; try tauto; intros; discriminate].
      destruct (HR R eq_refl) as [LR VR]. apply wp_bind. apply wp_rd; [lia|]. apply wp_bind. apply wp_rd; [lia|]. apply wp_bind. apply wp_rd; [lia|]. apply wp_bind. apply wp_wr; [lia|]. cbn [wp].
      split; [split; intros; discriminate|]. split; [intros R0 R' E1 E2; inversion E1; inversion E2; subst; now rewrite upd_length|].
      intros R' E1. inversion E1. clear E1. rewrite upd_length. split; auto. intros v Hv. destruct (Nat.eq_dec v u) as [->|Hvu].
      - rewrite aget_upd_eq by lia. rewrite VR by auto. rewrite EL, ELq. rewrite (lev_diff n par post pos f NF p q) by auto.
        rewrite <- Z.add_assoc. f_equal. rewrite <- zsum_add. apply zsum_ext. intros j Hj. rewrite (RW j Hj). unfold hitrow. rewrite hitb_snoc, Nat.eqb_refl. cbn [andb].
        destruct (j =? u), (sub j u), (sub p j), (hitb E u j); reflexivity.
      - rewrite aget_upd_ne by auto. rewrite VR by auto. f_equal. apply zsum_ext. intros j Hj. unfold hitrow. rewrite hitb_snoc. replace (u =? v) with false by lia. cbn [andb]. now rewrite orb_false_r. }
    eapply wp_mono; [exact GR|]. clear GR. intros Row (RW1 & RW2 & RW3). apply wp_bind. apply wp_wr; [lia|]. cbn [wp sNbr sCol sLeaf sRow sSet].
    apply wp_bind. apply wp_wr; [lia|]. cbn [wp]. apply HQ; cbn [sNbr sCol sLeaf sRow sSet]; auto.
    unfold cinv. cbn [sNbr sCol sLeaf sRow sSet]. rewrite !upd_length. split; [auto|]. split; [lia|]. split; [auto|]. split; [auto|]. split; [exact HE'|]. split; [|split; [|auto]].
    + intros j Hj. rewrite TC, HT by auto. rewrite (zsum_diff n (term (S k) (E ++ [(p, u)]) j) (term (S k) E j) u); auto.
      * unfold term. rewrite hitb_snoc, Nat.eqb_refl. cbn [andb]. destruct (sub p j), (hitb E u j); cbn [b2z andb orb negb]; lia.
      * intros v Hv Hvu. unfold term. rewrite hitb_snoc. replace (u =? v) with false by lia. cbn [andb]. now rewrite orb_false_r.
    + intros v Hv Hkv. destruct (Nat.eq_dec v u) as [->|Hvu].
      * right. exists p, p. rewrite !aget_upd_eq by lia. rewrite Hpk. assert (In (p, u) (E ++ [(p, u)])) by (apply in_app_iff; right; now left).
        splits; auto; [now apply (sub_refl n par post pos f NF)|]. intros x Hx. destruct (HE' x u Hx) as (_ & _ & _ & _ & ?). lia.
      * rewrite !aget_upd_ne by auto. destruct (HU v Hv Hkv) as [(N1 & N2 & N3)|(i & s & N1 & N2 & N3 & N4 & N5 & N6)].
        -- left. splits; auto. intros x Hx. apply in_app_iff in Hx. destruct Hx as [Hx|[Hx|[]]]; [now apply N3 in Hx|]. inversion Hx; congruence.
        -- right. exists i, s. splits; auto; try (apply in_app_iff; now left). intros x Hx. apply in_app_iff in Hx. destruct Hx as [Hx|[Hx|[]]]; [now apply N6|inversion Hx; congruence].
  - (* no leaf *)
    cbn [wp]. destruct (HU u Hu ltac:(lia)) as [(N1 & N2 & N3)|(i & s & N1 & N2 & N3 & N4 & N5 & N6)]; [exfalso; lia|].
    destruct (HE i u N3) as (Bi & _ & _ & Siu & Pi). destruct (HE s u N4) as (Bs & _ & _ & Ssu & Ps).
    assert (Hip : sub i p = true) by (unfold L_Symb.sub; lia).
    assert (HH : forall v j, j < n -> hitb (E ++ [(p, u)]) v j = hitb E v j).
    { intros v j Hj. rewrite hitb_snoc. destruct (u =? v) eqn:Euv; cbn [andb]; [|apply orb_false_r]. assert (u = v) by lia. subst v. destruct (sub p j) eqn:Epj; [|apply orb_false_r].
      rewrite orb_true_r. symmetry. apply hitb_iff. exists i. split; auto. apply (sub_trans n par post pos f NF i p j); auto. }
    apply wp_bind. apply wp_wr; [lia|]. cbn [wp]. apply HQ; cbn [sNbr sCol sLeaf sRow sSet]; auto; [|tauto|intros R R' E1 E2; congruence].
    unfold cinv. cbn [sNbr sCol sLeaf sRow sSet]. rewrite upd_length. split; [auto|]. split; [auto|]. split; [auto|]. split; [auto|]. split; [exact HE'|]. split; [|split].
    + intros j Hj. rewrite HT by auto. apply zsum_ext. intros v Hv. unfold term. now rewrite HH.
    + intros v Hv Hkv. destruct (Nat.eq_dec v u) as [->|Hvu].
      * right. exists p, s. rewrite aget_upd_eq by lia. rewrite Hpk. splits; auto.
        -- apply in_app_iff. right. now left.
        -- apply in_app_iff. now left.
        -- apply (sub_trans n par post pos f NF s i p); auto.
        -- intros x Hx. destruct (HE' x u Hx) as (_ & _ & _ & _ & ?). lia.
      * rewrite aget_upd_ne by auto. destruct (HU v Hv Hkv) as [(M1 & M2 & M3)|(i' & s' & M1 & M2 & M3 & M4 & M5 & M6)].
        -- left. splits; auto. intros x Hx. apply in_app_iff in Hx. destruct Hx as [Hx|[Hx|[]]]; [now apply M3 in Hx|]. inversion Hx; congruence.
        -- right. exists i', s'. splits; auto; try (apply in_app_iff; now left). intros x Hx. apply in_app_iff in Hx. destruct Hx as [Hx|[Hx|[]]]; [now apply M6|inversion Hx; congruence].
    + intros R ER. destruct (HR R ER) as [LR VR]. split; auto. intros v Hv. rewrite VR by auto. f_equal. apply zsum_ext. intros j Hj. unfold hitrow. now rewrite HH.
Qed.
End Main.
