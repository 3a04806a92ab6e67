(** First descendants, levels and leaves (lfactor_creation.cpp 226-255). *)
From Coq Require Import ZifyBool ZifyNat.
From Verif Require Import Base Lib Lib2 Lib3 Spec SpecSym M_Tree M_Symb P_Tree P_Post P_TreeH L_Symb.

Section First.
Variables (n : nat) (par : list Z) (post : list nat) (pos f : nat -> nat).
Hypothesis NF : numbered n par post pos f.
Notation sub := (sub pos f).
Notation lev := (lev n pos f).

Lemma f_le j : j < n -> f j <= pos j.
Proof. intros Hj. pose proof (sub_refl n par post pos f NF j Hj) as H. unfold L_Symb.sub in H. lia. Qed.

Lemma f_attained j : j < n -> f j < n /\ sub post.[f j] j = true.
Proof.
  intros Hj. pose proof (f_le j Hj). destruct (nf_pos n par post pos f NF j Hj) as [P1 _]. split; [lia|].
  destruct (nf_post n par post pos f NF (f j) ltac:(lia)) as [P2 P3]. unfold L_Symb.sub. rewrite P3. lia.
Qed.

Lemma f_mono r x : r < n -> x < n -> sub r x = true -> f x <= f r.
Proof.
  intros Hr Hx H. destruct (f_attained r Hr) as [F1 F2]. destruct (nf_post n par post pos f NF (f r) F1) as [P1 P2].
  assert (G : sub post.[f r] x = true) by (apply (sub_trans n par post pos f NF _ r); auto). unfold L_Symb.sub in G. lia.
Qed.

Definition above (r : Z) (x : nat) : bool := (0 <=? r)%Z && sub (Z.to_nat r) x.

Lemma above_up (i s p x : nat) : s < n -> p < n -> x < n -> par.[s] = Z.of_nat p -> s < p -> above (Z.of_nat p) x = above (Z.of_nat s) x && negb (x =? s).
Proof.
  intros Hs Hp Hx E Hlt. unfold above. rewrite !Nat2Z.id. replace (0 <=? Z.of_nat p)%Z with true by lia. replace (0 <=? Z.of_nat s)%Z with true by lia. cbn [andb].
  rewrite (sub_step n par post pos f NF s x p) by auto. destruct (x =? s) eqn:Ex.
  - assert (x = s) by lia. subst x. rewrite (sub_not_parent n par post pos f NF s p) by auto. rewrite andb_false_r. reflexivity.
  - replace (s =? x) with false by lia. cbn [orb negb]. now rewrite andb_true_r.
Qed.
Lemma above_root (s x : nat) : s < n -> x < n -> par.[s] = (-1)%Z -> above (Z.of_nat s) x = (x =? s).
Proof.
  intros Hs Hx E. unfold above. rewrite Nat2Z.id. replace (0 <=? Z.of_nat s)%Z with true by lia. cbn [andb]. rewrite (sub_root n par post pos f NF s x) by auto. apply Nat.eqb_sym.
Qed.

Section Path.
Variables (k i : nat).
Hypothesis Hi : i < n.
Hypothesis Hk : pos i = k.

Lemma anc_f x : x < n -> sub i x = true -> f x <= k /\ k <= pos x.
Proof. intros Hx H. unfold L_Symb.sub in H. lia. Qed.

Definition fpath (F0 : list Z) (st : Z * Z * list Z) : Prop :=
  let '(r, len, F) := st in
  length F = length F0 /\ (r = (-1)%Z \/ exists m, r = Z.of_nat m /\ m < n /\ sub i m = true) /\
  (forall x, x < n -> sub i x = true -> above r x = false -> f x = k) /\
  (forall x, x < n -> F.[x] = if sub i x && negb (above r x) then Z.of_nat k else F0.[x]) /\
  len = (if (r =? -1)%Z then lev i + 1 else lev i - lev (Z.to_nat r))%Z.

Lemma first_path_wp F0 (Q : Z * Z * list Z -> Prop) : n <= length F0 ->
  (forall x, x < n -> F0.[x] = if f x <? k then Z.of_nat (f x) else (-1)%Z) ->
  (forall r len F, length F = length F0 -> (r = (-1)%Z \/ exists m, r = Z.of_nat m /\ m < n /\ sub i m = true /\ f m < k) ->
     (forall x, x < n -> sub i x = true -> above r x = false -> f x = k) ->
     (forall x, x < n -> F.[x] = if f x <? S k then Z.of_nat (f x) else (-1)%Z) ->
     len = (if (r =? -1)%Z then lev i + 1 else lev i - lev (Z.to_nat r))%Z -> Q (r, len, F)) ->
  wp (first_path n par k i F0) Q.
Proof.
  intros HL HF HQ. unfold first_path. destruct (nf_len n par post pos f NF) as [LP _].
  apply wp_while with (I := fpath F0) (m := fun '(r, _, _) => if (r =? -1)%Z then 0 else n - Z.to_nat r).
  - unfold fpath. split; [auto|]. split; [right; exists i; splits; auto; now apply (sub_refl n par post pos f NF)|].
    split; [intros x Hx H1 H2; unfold above in H2; rewrite Nat2Z.id in H2; replace (0 <=? Z.of_nat i)%Z with true in H2 by lia; cbn [andb] in H2; congruence|].
    split.
    + intros x Hx. unfold above. rewrite Nat2Z.id. replace (0 <=? Z.of_nat i)%Z with true by lia. cbn [andb]. now rewrite andb_negb_r.
    + replace (Z.of_nat i =? -1)%Z with false by lia. rewrite Nat2Z.id. lia.
  - destruct (Z.of_nat i =? -1)%Z; lia.
  - intros [[r len] F] (J1 & J2 & J3 & J4 & J5). destruct J2 as [->|(m & -> & Hm & Hsm)].
    + cbn [Z.eqb Pos.eqb wp]. apply HQ; auto. intros x Hx. rewrite J4 by auto. unfold above. cbn [Z.leb Z.compare andb negb]. rewrite andb_true_r.
      destruct (sub i x) eqn:Hsx; [rewrite (J3 x Hx Hsx eq_refl); replace (k <? S k) with true by lia; reflexivity|]. rewrite HF by auto.
      assert (f x <> k). { intros E. destruct (f_attained x Hx) as [_ G]. rewrite E, <- Hk in G. destruct (nf_pos n par post pos f NF i Hi) as [_ G2]. rewrite G2 in G. congruence. }
      destruct (f x <? k) eqn:E1; [replace (f x <? S k) with true by lia; auto|replace (f x <? S k) with false by lia; auto].
    + replace (Z.of_nat m =? -1)%Z with false in * by lia. rewrite Nat2Z.id in *. apply wp_bind. apply rdZ_wp; [lia|rewrite Nat2Z.id; lia|]. rewrite Nat2Z.id.
      assert (AM : above (Z.of_nat m) m = true) by (unfold above; rewrite Nat2Z.id; rewrite (sub_refl n par post pos f NF m Hm); lia).
      assert (EF : F.[m] = if f m <? k then Z.of_nat (f m) else (-1)%Z) by (rewrite J4 by auto; rewrite AM; cbn [negb]; rewrite andb_false_r; now apply HF).
      destruct (anc_f m Hm Hsm) as [A1 A2]. cbn [wp]. destruct (F.[m] =? -1)%Z eqn:EM.
      * assert (EK : f m = k) by (destruct (f m <? k) eqn:E1; lia). apply wp_bind. apply wrZ_wp; [lia|rewrite Nat2Z.id; lia|]. rewrite Nat2Z.id. apply wp_bind. apply rdZ_wp; [lia|rewrite Nat2Z.id; lia|]. rewrite Nat2Z.id. cbn [wp].
        assert (NX : forall r', (forall x, x < n -> above r' x = above (Z.of_nat m) x && negb (x =? m)) ->
           (forall x, x < n -> sub i x = true -> above r' x = false -> f x = k) /\
           (forall x, x < n -> (upd F m (Z.of_nat k)).[x] = if sub i x && negb (above r' x) then Z.of_nat k else F0.[x])).
        { intros r' HR. split.
          - intros x Hx H1 H2. rewrite HR in H2 by auto. apply andb_false_iff in H2. destruct H2 as [H2|H2]; [now apply J3|]. assert (x = m) by lia. now subst x.
          - intros x Hx. rewrite HR by auto. destruct (Nat.eq_dec x m) as [->|Hne].
            + rewrite aget_upd_eq by lia. rewrite Nat.eqb_refl, Hsm, AM. reflexivity.
            + rewrite aget_upd_ne by auto. rewrite J4 by auto. replace (x =? m) with false by lia. cbn [negb]. now rewrite andb_true_r. }
        destruct (nf_up n par post pos f NF m Hm) as [Er|(p & Ep & P1 & P2)].
        -- rewrite Er. destruct (NX (-1)%Z) as [NX1 NX2].
           { intros x Hx. rewrite (above_root m x) by auto. unfold above. cbn [Z.leb Z.compare andb]. now rewrite andb_negb_r. }
           split; [|cbn [Z.eqb Pos.eqb]; lia]. unfold fpath. rewrite upd_length. splits; auto. cbn [Z.eqb Pos.eqb].
           rewrite (lev_root n par post pos f NF m Hm Er) in J5. lia.
        -- rewrite Ep. destruct (NX (Z.of_nat p)) as [NX1 NX2]; [intros x Hx; apply above_up; auto|].
           replace (Z.of_nat p =? -1)%Z with false by lia. split; [|lia]. unfold fpath. rewrite upd_length. replace (Z.of_nat p =? -1)%Z with false by lia. rewrite Nat2Z.id. splits; auto.
           ++ right. exists p. splits; auto. apply (sub_trans n par post pos f NF i m p); auto. now apply (sub_parent n par post pos f NF).
           ++ rewrite (lev_step n par post pos f NF m p) in J5; auto. lia.
      * assert (EK : f m < k) by (destruct (f m <? k) eqn:E1; lia). apply HQ; auto.
        -- right. exists m. auto.
        -- intros x Hx. rewrite J4 by auto. destruct (sub i x) eqn:Hsx.
           ++ destruct (above (Z.of_nat m) x) eqn:Ax; cbn [andb negb].
              ** rewrite HF by auto. unfold above in Ax. rewrite Nat2Z.id in Ax. apply andb_true_iff in Ax. destruct Ax as [_ Ax].
                 pose proof (f_mono m x Hm Hx Ax). replace (f x <? k) with true by lia. now replace (f x <? S k) with true by lia.
              ** rewrite (J3 x Hx Hsx Ax). now replace (k <? S k) with true by lia.
           ++ cbn [andb]. rewrite HF by auto.
              assert (f x <> k). { intros E. destruct (f_attained x Hx) as [_ G]. rewrite E, <- Hk in G. destruct (nf_pos n par post pos f NF i Hi) as [_ G2]. rewrite G2 in G. congruence. }
              destruct (f x <? k) eqn:E1; [replace (f x <? S k) with true by lia; auto|replace (f x <? S k) with false by lia; auto].
        -- replace (Z.of_nat m =? -1)%Z with false by lia. now rewrite Nat2Z.id.
Qed.

Lemma level_path_wp r L0 (Q : list Z -> Prop) : n <= length L0 ->
  (r = (-1)%Z \/ exists m, r = Z.of_nat m /\ m < n /\ sub i m = true) ->
  (forall L, length L = length L0 -> (forall x, x < n -> L.[x] = if sub i x && negb (above r x) then lev x else L0.[x]) -> Q L) ->
  wp (level_path n par i r (lev i) L0) Q.
Proof.
  intros HL HR HQ. unfold level_path. destruct (nf_len n par post pos f NF) as [LP _]. apply wp_bind.
  apply wp_while with (I := fun '(s, len, L) => length L = length L0 /\
      (s = r \/ exists m, s = Z.of_nat m /\ m < n /\ sub i m = true /\ above r m = false) /\
      (forall x, x < n -> sub i x = true -> above r x = true -> above s x = true) /\
      (forall x, x < n -> L.[x] = if sub i x && negb (above s x) then lev x else L0.[x]) /\
      ((0 <= s)%Z -> len = lev (Z.to_nat s)))
    (m := fun '(s, _, _) => if (s =? -1)%Z then 0 else n - Z.to_nat s).
  - splits; auto.
    + destruct HR as [->|(m & -> & Hm & Hsm)].
      * right. exists i. splits; auto. now apply (sub_refl n par post pos f NF).
      * destruct (above (Z.of_nat m) i) eqn:Am.
        -- left. unfold above in Am. rewrite Nat2Z.id in Am. apply andb_true_iff in Am. destruct Am as [_ Am]. f_equal. now apply (sub_antisym n par post pos f NF).
        -- right. exists i. splits; auto. now apply (sub_refl n par post pos f NF).
    + intros x Hx H1 _. unfold above. rewrite Nat2Z.id, H1. lia.
    + intros x Hx. unfold above. rewrite Nat2Z.id. replace (0 <=? Z.of_nat i)%Z with true by lia. cbn [andb]. now rewrite andb_negb_r.
    + intros _. now rewrite Nat2Z.id.
  - destruct (Z.of_nat i =? -1)%Z; lia.
  - intros [[s len] L] (J1 & J2 & J3 & J4 & J5). cbn [wp]. destruct (s =? r)%Z eqn:Es; cbn [negb].
    + cbn [wp snd]. assert (s = r) by lia. subst s. apply HQ; auto.
    + destruct J2 as [J2|(m & -> & Hm & Hsm & Ha)]; [lia|]. specialize (J5 ltac:(lia)). rewrite Nat2Z.id in J5.
      apply wp_bind. apply wrZ_wp; [lia|rewrite Nat2Z.id; lia|]. rewrite Nat2Z.id. apply wp_bind. apply rdZ_wp; [lia|rewrite Nat2Z.id; lia|]. rewrite Nat2Z.id. cbn [wp].
      replace (Z.of_nat m =? -1)%Z with false by lia.
      assert (AM : above (Z.of_nat m) m = true) by (unfold above; rewrite Nat2Z.id; rewrite (sub_refl n par post pos f NF m Hm); lia).
      assert (NX : forall s', (forall x, x < n -> above s' x = above (Z.of_nat m) x && negb (x =? m)) ->
         (forall x, x < n -> sub i x = true -> above r x = true -> above s' x = true) /\
         (forall x, x < n -> (upd L m len).[x] = if sub i x && negb (above s' x) then lev x else L0.[x])).
      { intros s' HS. split.
        - intros x Hx H1 H2. rewrite HS, (J3 x Hx H1 H2) by auto. destruct (x =? m) eqn:Ex; auto. assert (x = m) by lia. subst x. congruence.
        - intros x Hx. rewrite HS by auto. destruct (Nat.eq_dec x m) as [->|Hne].
          + rewrite aget_upd_eq by lia. now rewrite Nat.eqb_refl, Hsm, AM.
          + rewrite aget_upd_ne by auto. rewrite J4 by auto. replace (x =? m) with false by lia. cbn [negb]. now rewrite andb_true_r. }
      destruct (nf_up n par post pos f NF m Hm) as [Er|(p & Ep & P1 & P2)].
      * rewrite Er. destruct (NX (-1)%Z) as [NX1 NX2].
        { intros x Hx. rewrite (above_root m x) by auto. unfold above. cbn [Z.leb Z.compare andb]. now rewrite andb_negb_r. }
        split; [|cbn [Z.eqb Pos.eqb]; lia]. rewrite upd_length. splits; auto; [|lia]. left.
        destruct HR as [->|(q & -> & Hq & Hsq)]; auto. exfalso. specialize (NX1 q Hq Hsq). unfold above in NX1. rewrite Nat2Z.id, (sub_refl n par post pos f NF q Hq) in NX1.
        replace (0 <=? Z.of_nat q)%Z with true in NX1 by lia. specialize (NX1 eq_refl). cbn [Z.leb Z.compare andb] in NX1. discriminate.
      * rewrite Ep. destruct (NX (Z.of_nat p)) as [NX1 NX2]; [intros x Hx; apply above_up; auto|].
        replace (Z.of_nat p =? -1)%Z with false by lia. split; [|lia]. rewrite upd_length. 
        assert (Hip : sub i p = true) by (apply (sub_trans n par post pos f NF i m p); auto; now apply (sub_parent n par post pos f NF)).
        splits; auto; [|intros _; rewrite Nat2Z.id; rewrite (lev_step n par post pos f NF m p) in J5; auto; lia].
        destruct (above r p) eqn:Ap; [left|right; exists p; splits; auto]. unfold above in Ap. apply andb_true_iff in Ap. destruct Ap as [Ap1 Ap2].
        destruct HR as [->|(q & -> & Hq & Hsq)]; [lia|]. rewrite Nat2Z.id in Ap2. f_equal. apply (sub_antisym n par post pos f NF); auto.
        specialize (NX1 q Hq Hsq). unfold above in NX1. rewrite !Nat2Z.id, (sub_refl n par post pos f NF q Hq) in NX1. replace (0 <=? Z.of_nat q)%Z with true in NX1 by lia. specialize (NX1 eq_refl). lia.
Qed.
End Path.

Theorem first_levels_wp C0 F0 L0 (Q : list Z * list Z * list Z -> Prop) : n <= length C0 -> n <= length F0 -> n <= length L0 ->
  (forall C F L, length C = length C0 -> length F = length F0 -> length L = length L0 ->
     (forall j, j < n -> F.[j] = Z.of_nat (f j) /\ L.[j] = lev j /\ C.[j] = b2z (f j =? pos j)) -> Q (C, F, L)) ->
  wp (first_levels n par post C0 F0 L0) Q.
Proof.
  intros HC HF HL HQ. unfold first_levels. destruct (nf_len n par post pos f NF) as [LP LPo]. apply wp_bind.
  apply wp_for with (I := fun k F => length F = length F0 /\ forall x, x < k -> F.[x] = (-1)%Z); [lia|split; [auto|lia]| |].
  { intros k F Hk (E1 & E2). apply wp_wr; [lia|]. rewrite upd_length. split; auto. intros x Hx. destruct (Nat.eq_dec x k) as [->|]; [now rewrite aget_upd_eq by lia|]. rewrite aget_upd_ne by auto. apply E2. lia. }
  intros F1 (E1 & E2).
  apply wp_for with (I := fun k '(C, F, L) => length C = length C0 /\ length F = length F0 /\ length L = length L0 /\
     (forall x, x < n -> F.[x] = if f x <? k then Z.of_nat (f x) else (-1)%Z) /\ (forall x, x < n -> f x < k -> L.[x] = lev x) /\
     (forall x, x < n -> pos x < k -> C.[x] = b2z (f x =? pos x))); [lia| | |].
  - splits; auto; try lia.
  - intros k [[C F] L] Hk (I1 & I2 & I3 & I4 & I5 & I6). destruct (nf_post n par post pos f NF k ltac:(lia)) as [P1 P2].
    apply wp_bind. apply wp_rd; [lia|]. set (i := post.[k]) in *. apply wp_bind. apply wp_rd; [lia|]. apply wp_bind. apply wp_wr; [lia|]. apply wp_bind.
    apply (first_path_wp k i P1 P2); [lia|auto|]. intros r len F' K1 K2 K3 K4 K5. apply wp_bind.
    assert (G : wp (if (r =? -1)%Z then Ok (len - 1)%Z else l <- rdZ L r;; Ok (len + l)%Z) (fun l => l = lev i)).
    { destruct K2 as [->|(m & -> & Hm & Hsm & Hf)]; [cbn [Z.eqb Pos.eqb wp] in *; lia|]. replace (Z.of_nat m =? -1)%Z with false in * by lia. rewrite Nat2Z.id in K5.
      apply wp_bind. apply rdZ_wp; [lia|rewrite Nat2Z.id; lia|]. rewrite Nat2Z.id. cbn [wp]. rewrite I5 by auto. lia. }
    eapply wp_mono; [exact G|]. intros l ->. apply wp_bind.
    apply (level_path_wp k i P1 P2 r L); [lia|destruct K2 as [->|(m & -> & Hm & Hsm & Hf)]; [auto|right; eauto]|].
    intros L' M1 M2. cbn [wp]. rewrite upd_length. splits; auto; try lia.
    + intros x Hx Hfx. rewrite M2 by auto. destruct (sub i x) eqn:Hsx; cbn [andb].
      * destruct (above r x) eqn:Ax; cbn [negb]; auto. destruct K2 as [->|(m & -> & Hm & Hsm & Hf)]; [discriminate|]. unfold above in Ax. rewrite Nat2Z.id in Ax. apply andb_true_iff in Ax.
        pose proof (f_mono m x Hm Hx ltac:(tauto)). apply I5; auto. lia.
      * apply I5; auto. assert (f x <> k); [|lia]. intros E. destruct (f_attained x Hx) as [_ G2]. rewrite E in G2. fold i in G2. congruence.
    + intros x Hx Hpx. destruct (Nat.eq_dec x i) as [->|Hne].
      * rewrite aget_upd_eq by lia. rewrite I4 by auto. pose proof (f_le i P1) as FL. rewrite P2 in *. destruct (f i <? k) eqn:E; [replace (Z.of_nat (f i) =? -1)%Z with false by lia; now replace (f i =? k) with false by lia|].
        replace (f i =? k) with true by lia. reflexivity.
      * rewrite aget_upd_ne by auto. apply I6; auto. assert (pos x <> k); [|lia]. intros E. apply Hne. apply (nf_pos_inj n par post pos f NF); auto. lia.
  - intros [[C F] L] (I1 & I2 & I3 & I4 & I5 & I6). apply HQ; auto. intros j Hj. destruct (nf_pos n par post pos f NF j Hj) as [P1 _]. pose proof (f_le j Hj). rewrite I4, I5, I6 by (auto; lia).
    replace (f j <? n) with true by lia. auto.
Qed.
End First.
