(** Proofs about the components of a slab: dfs_CSC_CC, make_unique and the renumbering. *)
From Verif Require Import Base Lib Lib2 Spec M_LBC.
From Coq Require Import ZifyBool ZifyNat.

Section Dfs.
Variables (n : nat) (Lp Li : list nat).
Hypothesis W : wf_csc n Lp Li.

(** what a search from [j] with marks [m0] leaves: [out] are the nodes found *)
Record dfs_post (j : nat) (m0 : list Z) (clash0 out : list nat) (m : list Z) (clash : list nat) : Prop := {
  dp_nodup : NoDup out;
  dp_root : In j out;
  dp_new : forall u, In u out -> u < n /\ m0.[u] = 0%Z;
  dp_len : length m = length m0;
  dp_in : forall u, In u out -> m.[u] = 1%Z;
  dp_out : forall u, ~ In u out -> m.[u] = m0.[u];
  dp_closed : forall u v, In u out -> edge n Lp Li u v -> In v out \/ m0.[v] <> 0%Z;
  dp_reach : forall P : nat -> Prop, P j -> (forall u v, P u -> edge n Lp Li u v -> P v) -> forall u, In u out -> P u;
  dp_clash : exists new, clash = clash0 ++ new /\
    (forall v, In v new -> m0.[v] = (-1)%Z /\ exists u, In u out /\ edge n Lp Li u v) /\
    (forall u v, In u out -> edge n Lp Li u v -> m0.[v] = (-1)%Z -> In v new) }.

Definition stk_nodes (stk : list (nat * option nat)) : list nat := map fst stk.

(** the nodes on the stack that are marked: all but a fresh top *)
Definition on_marked (stk : list (nat * option nat)) (u : nat) : Prop := exists q, In (u, Some q) stk.

Record dfs_inv (j : nat) (m0 : list Z) (clash0 : list nat) (stk : list (nat * option nat)) (out : list nat) (m : list Z) (clash new : list nat) : Prop := {
  di_nodup : NoDup (stk_nodes stk ++ out);
  di_root : In j (stk_nodes stk ++ out);
  di_new : forall u, In u (stk_nodes stk ++ out) -> u < n /\ m0.[u] = 0%Z;
  di_len : length m = length m0;
  di_tail : forall i, 0 < i < length stk -> exists q, snd stk.[i] = Some q;
  di_in : forall u, on_marked stk u \/ In u out -> m.[u] = 1%Z;
  di_out : forall u, ~ (on_marked stk u \/ In u out) -> m.[u] = m0.[u];
  di_pos : forall u q, In (u, Some q) stk -> Lp.[u] <= q <= Lp.[S u] /\
     forall p, Lp.[u] <= p < q -> m.[Li.[p]] <> 0%Z /\ (m0.[Li.[p]] = (-1)%Z -> In Li.[p] new);
  di_closed : forall u p, In u out -> Lp.[u] <= p < Lp.[S u] -> m.[Li.[p]] <> 0%Z /\ (m0.[Li.[p]] = (-1)%Z -> In Li.[p] new);
  di_reach : forall P : nat -> Prop, P j -> (forall u v, P u -> edge n Lp Li u v -> P v) -> forall u, In u (stk_nodes stk ++ out) -> P u;
  di_clash : clash = clash0 ++ new;
  di_cl : forall v, In v new -> m0.[v] = (-1)%Z /\ exists u, In u (stk_nodes stk ++ out) /\ edge n Lp Li u v }.

Lemma in_stk stk u p : In (u, p) stk -> In u (stk_nodes stk).
Proof. intros H. apply (in_map fst) in H. exact H. Qed.

(** one scan of a column from position [p0] *)
Lemma scan_wp m0 m clash0 new u p0 (Q : list nat * option (nat * nat) -> Prop) :
  u < n -> length m = n -> length m0 = n -> Lp.[u] <= p0 <= Lp.[S u] ->
  m.[u] = 1%Z -> m0.[u] = 0%Z ->
  (forall v, m0.[v] = (-1)%Z -> m.[v] = (-1)%Z) ->
  (forall v, m.[v] = (-1)%Z -> m0.[v] = (-1)%Z) ->
  (forall v, In v new -> m0.[v] = (-1)%Z /\ exists x, x = u \/ True) ->
  (forall p, Lp.[u] <= p < p0 -> m.[Li.[p]] <> 0%Z /\ (m0.[Li.[p]] = (-1)%Z -> In Li.[p] new)) ->
  (forall new' f, (forall v, In v new -> In v new') ->
     (forall v, In v new' -> In v new \/ (m0.[v] = (-1)%Z /\ edge n Lp Li u v)) ->
     match f with
     | Some (q, i) => Lp.[u] <= q < Lp.[S u] /\ i = Li.[q] /\ m.[i] = 0%Z /\ i < n /\ edge n Lp Li u i /\
         (forall p, Lp.[u] <= p < q -> m.[Li.[p]] <> 0%Z /\ (m0.[Li.[p]] = (-1)%Z -> In Li.[p] new'))
     | None => forall p, Lp.[u] <= p < Lp.[S u] -> m.[Li.[p]] <> 0%Z /\ (m0.[Li.[p]] = (-1)%Z -> In Li.[p] new')
     end -> Q (clash0 ++ new', f)) ->
  wp (forb_ p0 Lp.[S u] (fun q '(clash, _) =>
         i <- rd Li q ;; mi <- rd m i ;;
         let clash := if (mi =? -1)%Z then clash ++ [i] else clash in
         if (mi =? 0)%Z then Ok (true, (clash, Some (q, i))) else Ok (false, (clash, None))) (clash0 ++ new, None)) Q.
Proof.
  intros Hu HL HL0 Hp Hmu Hm0u Hk1 Hk2 _ Hb HQ.
  apply (wp_forb (fun q '(cl, f) => f = None /\ exists new', cl = clash0 ++ new' /\ (forall v, In v new -> In v new') /\
     (forall v, In v new' -> In v new \/ (m0.[v] = (-1)%Z /\ edge n Lp Li u v)) /\
     (forall p, Lp.[u] <= p < q -> m.[Li.[p]] <> 0%Z /\ (m0.[Li.[p]] = (-1)%Z -> In Li.[p] new')))).
  - lia.
  - split; auto. exists new. splits; auto.
  - intros q [cl f] Hq (-> & new' & -> & N1 & N2 & N3).
    destruct (wf_col_lt n Lp Li W u q Hu ltac:(lia)) as [Hq1 Hq2]. pose proof (wf_Li_lt n Lp Li W q Hq2) as Hi.
    wp1. wp1; [lia|]. wp1. wp1; [lia|]. cbv zeta.
    destruct (Z.eqb_spec m.[Li.[q]] 0) as [E0|E0].
    + wp1. simpl fst. simpl snd. cbv iota. rewrite E0. simpl.
      apply HQ; auto. splits; auto; try lia. split; [auto|split]; [exists q; split; [lia|auto]|]. intros Eu. rewrite <- Eu in E0. lia.
    + wp1. simpl fst. simpl snd. cbv iota. split; auto. destruct (Z.eqb_spec m.[Li.[q]] (-1)) as [E1|E1].
      * exists (new' ++ [Li.[q]]). splits; [now rewrite app_assoc| | |].
        -- intros v Hv. apply in_app_iff. auto.
        -- intros v Hv. apply in_app_iff in Hv. destruct Hv as [Hv|[<-|[]]]; auto.
           right. split; auto. split; [auto|split]; [exists q; split; [lia|auto]|]. intros Eu. rewrite <- Eu in E1. lia.
        -- intros p Hpp. destruct (Nat.eq_dec p q) as [->|].
           ++ split; auto. intros _. apply in_app_iff. right. now left.
           ++ destruct (N3 p ltac:(lia)) as [A B]. split; auto. intros C. apply in_app_iff. left. auto.
      * exists new'. splits; auto. intros p Hpp. destruct (Nat.eq_dec p q) as [->|].
        -- split; auto. intros C. apply Hk1 in C. lia.
        -- apply N3. lia.
  - intros [cl f] (-> & new' & -> & N1 & N2 & N3). apply HQ; auto.
Qed.

Lemma dfs_wp j m0 clash0 (Q : list nat * list Z * list nat -> Prop) :
  j < n -> length m0 = n -> m0.[j] = 0%Z ->
  (forall out m clash, dfs_post j m0 clash0 out m clash -> Q (out, m, clash)) ->
  wp (dfs_CSC_CC n j Lp Li m0 clash0) Q.
Proof.
  intros Hj HL Hmj HQ. unfold dfs_CSC_CC. wp1.
  apply (wp_while (fun '(stk, out, m, clash) => exists new, dfs_inv j m0 clash0 stk out m clash new)
    (fun '(stk, out, m, clash) => 2 * (n - (length stk + length out)) + length stk)).
  - exists []. constructor; simpl; auto.
    + constructor; [intros []|constructor].
    + intros u [<-|[]]. auto.
    + intros i Hi. lia.
    + intros u [[q [E|[]]]|[]]. discriminate.
    + intros u q [E|[]]. discriminate.
    + intros P HP _ u [<-|[]]. auto.
    + now rewrite app_nil_r.
    + intros v [].
  - simpl. lia.
  - intros [[[stk out] m] clash] [new I]. wp1. destruct stk as [|[u p] rest]; simpl negb; cbv iota.
    { wp1. apply HQ. destruct I. simpl in *.
      assert (OM : forall x, ~ on_marked [] x) by (intros x [q []]).
      constructor; auto.
      - intros x Hx. apply di_out0. intros [H|H]; auto. now apply (OM x).
      - intros x v Hx (_ & [k [Hk <-]] & Hne). destruct (in_dec Nat.eq_dec Li.[k] out) as [|Hno]; auto. right.
        destruct (di_closed0 x k Hx Hk) as [A _]. rewrite di_out0 in A; auto. intros [H|H]; auto. now apply (OM Li.[k]).
      - exists new. splits; auto. intros x v Hx (_ & [k [Hk <-]] & Hne) Hm. now apply (di_closed0 x k Hx Hk). }
    assert (Hin : In u (stk_nodes ((u, p) :: rest) ++ out)) by (simpl; auto).
    destruct (di_new _ _ _ _ _ _ _ _ I u Hin) as [Hu Hmu].
    assert (HLm : length m = n) by (rewrite (di_len _ _ _ _ _ _ _ _ I); auto).
    pose proof (di_nodup _ _ _ _ _ _ _ _ I) as ND. simpl in ND.
    assert (Hnr : ~ In u (stk_nodes rest) /\ ~ In u out).
    { inversion ND as [|? ? A B]; subst. split; intros C; apply A; apply in_app_iff; auto. }
    assert (Hlen : S (length rest) + length out <= n).
    { assert (E : length (stk_nodes ((u, p) :: rest) ++ out) <= n).
      { apply NoDup_bounded_length; [exact ND|]. intros x Hx. now apply (di_new _ _ _ _ _ _ _ _ I). }
      rewrite app_length in E. unfold stk_nodes in E. rewrite map_length in E. simpl in E. lia. }
    destruct W as (WL & W0 & Wm & WLi & Wlt).
    (* after the first step the top is marked *)
    assert (G : forall m1 p1, wp (Ok (m1, Some p1)) (fun a => True) ->
      length m1 = n -> (forall x, (on_marked ((u, Some p1) :: rest) x \/ In x out) -> m1.[x] = 1%Z) ->
      (forall x, ~ (on_marked ((u, Some p1) :: rest) x \/ In x out) -> m1.[x] = m0.[x]) ->
      (forall x, m.[x] <> 0%Z -> m1.[x] <> 0%Z) ->
      Lp.[u] <= p1 <= Lp.[S u] ->
      (forall p, Lp.[u] <= p < p1 -> m1.[Li.[p]] <> 0%Z /\ (m0.[Li.[p]] = (-1)%Z -> In Li.[p] new)) ->
      wp (m' <- rd m1 u ;;
          (let clash1 := if (m' =? -1)%Z then clash ++ [u] else clash in
           p2 <- rd Lp (S u) ;;
           p0 <- Ok p1 ;;
           '(clash2, found) <- forb_ p0 p2 (fun q '(clash3, _) =>
              i <- rd Li q ;; mi <- rd m1 i ;;
              let clash4 := if (mi =? -1)%Z then clash3 ++ [i] else clash3 in
              if (mi =? 0)%Z then Ok (true, (clash4, Some (q, i))) else Ok (false, (clash4, None))) (clash1, None) ;;
           match found with
           | Some (q, i) => if S (length rest) + length out <? n then Ok ((i, None) :: (u, Some q) :: rest, out, m1, clash2) else Err OOB
           | None => if length rest + length out <? n then Ok (rest, u :: out, m1, clash2) else Err OOB
           end))
        (fun s' => (let '(stk', out', m', clash') := s' in exists new', dfs_inv j m0 clash0 stk' out' m' clash' new') /\
           (let '(stk', out', _, _) := s' in 2 * (n - (length stk' + length out')) + length stk') <
             2 * (n - (length ((u, p) :: rest) + length out)) + length ((u, p) :: rest))).
    { intros m1 p1 _ HL1 M1 M2 M3 Hp1 Hpre.
      assert (Mu : m1.[u] = 1%Z) by (apply M1; left; exists p1; now left).
      wp1. wp1; [lia|]. rewrite Mu. cbv zeta. simpl (1 =? -1)%Z. cbv iota. wp1. wp1; [lia|]. wp1. wp1. wp1.
      assert (Mall : forall x, In x (stk_nodes ((u, p) :: rest) ++ out) -> on_marked ((u, Some p1) :: rest) x \/ In x out).
      { intros x Hx. apply in_app_iff in Hx. destruct Hx as [Hx|Hx]; auto. left. simpl in Hx. destruct Hx as [<-|Hx].
        - exists p1. now left.
        - apply In_aget in Hx. destruct Hx as [i [Hi E]]. unfold stk_nodes in *. rewrite map_length in Hi.
          destruct (di_tail _ _ _ _ _ _ _ _ I (S i)) as [q Hq]; [simpl; lia|]. rewrite aget_cons_S in Hq.
          exists q. right. rewrite (aget_map fst) in E by auto.
          replace (x, Some q) with rest.[i] by (destruct rest.[i]; simpl in *; congruence). now apply aget_In. }
      assert (K1 : forall v, m0.[v] = (-1)%Z -> m1.[v] = (-1)%Z).
      { intros v Hv. rewrite M2; auto. intros [[q HH]|HH].
        - destruct HH as [HH|HH]; [inversion HH; subst; lia|].
          destruct (di_new _ _ _ _ _ _ _ _ I v); [|lia]. simpl. right. apply in_app_iff. left. eapply in_stk; eauto.
        - destruct (di_new _ _ _ _ _ _ _ _ I v); [|lia]. apply in_app_iff. auto. }
      assert (K2 : forall v, m1.[v] = (-1)%Z -> m0.[v] = (-1)%Z).
      { intros v Hv. rewrite M2 in Hv; auto. intros HH. rewrite M1 in Hv by auto. lia. }
      rewrite (di_clash _ _ _ _ _ _ _ _ I).
      apply (scan_wp m0); auto.
      { intros v Hv. split; [now apply (di_cl _ _ _ _ _ _ _ _ I)|exists u; auto]. }
      intros new' f N1 N2 Hf. cbv iota.
      assert (Mono : forall x q, In (x, Some q) rest -> Lp.[x] <= q <= Lp.[S x] /\
         forall p, Lp.[x] <= p < q -> m1.[Li.[p]] <> 0%Z /\ (m0.[Li.[p]] = (-1)%Z -> In Li.[p] new')).
      { intros x q Hx. destruct (di_pos _ _ _ _ _ _ _ _ I x q ltac:(now right)) as [A B]. split; auto.
        intros p' Hp'. destruct (B p' Hp') as [B1 B2]. split; auto. }
      assert (MonoO : forall x p, In x out -> Lp.[x] <= p < Lp.[S x] -> m1.[Li.[p]] <> 0%Z /\ (m0.[Li.[p]] = (-1)%Z -> In Li.[p] new')).
      { intros x p' Hx Hp'. destruct (di_closed _ _ _ _ _ _ _ _ I x p' Hx Hp') as [B1 B2]. split; auto. }
      assert (HLm0 : length m1 = length m0) by lia.
      destruct f as [[q i]|].
      - destruct Hf as (F1 & -> & F3 & F4 & F5 & F6).
        replace (S (length rest) + length out <? n) with true.
        2:{ symmetry. apply Nat.ltb_lt. assert (Hni : ~ In Li.[q] (stk_nodes ((u, p) :: rest) ++ out)).
          { intros Hi. apply Mall in Hi. apply M1 in Hi. lia. }
          assert (E : length (Li.[q] :: stk_nodes ((u, p) :: rest) ++ out) <= n).
          { apply NoDup_bounded_length; [constructor; auto|]. intros x [<-|Hx]; auto. now apply (di_new _ _ _ _ _ _ _ _ I). }
          simpl in E. rewrite app_length in E. unfold stk_nodes in E. rewrite map_length in E. lia. }
        wp1.
        assert (Hni : ~ In Li.[q] (stk_nodes ((u, p) :: rest) ++ out)).
        { intros Hi. apply Mall in Hi. apply M1 in Hi. lia. }
        assert (OMeq : forall x, on_marked ((Li.[q], None) :: (u, Some q) :: rest) x <-> on_marked ((u, Some p1) :: rest) x).
        { intros x. unfold on_marked. simpl. split.
          - intros [q' [E|[E|E]]]; [discriminate| |eauto]. inversion E; subst. exists p1. auto.
          - intros [q' [E|E]]; [|eauto]. inversion E; subst. exists q. auto. }
        split.
        + exists new'. constructor; auto.
          * simpl. constructor; auto.
          * simpl. right. exact (di_root _ _ _ _ _ _ _ _ I).
          * intros x [<-|Hx]; [split; auto|now apply (di_new _ _ _ _ _ _ _ _ I)].
            simpl. rewrite <- (M2 Li.[q]); [auto|]. intros HH. apply M1 in HH. congruence.
          * intros i Hi. destruct i as [|[|i]]; [lia|exists q; auto|]. rewrite !aget_cons_S.
            destruct (di_tail _ _ _ _ _ _ _ _ I (S i)) as [q' Hq']; [simpl in *; lia|]. rewrite aget_cons_S in Hq'. eauto.
          * intros x. rewrite OMeq. apply M1.
          * intros x. rewrite OMeq. apply M2.
          * intros x q' [E|[E|E]]; [discriminate| |auto]. inversion E; subst. split; [lia|]. auto.
          * intros P HP HPe x [<-|Hx]; [|now apply (di_reach _ _ _ _ _ _ _ _ I P)].
            apply (HPe u); auto. now apply (di_reach _ _ _ _ _ _ _ _ I P).
          * intros v Hv. destruct (N2 v Hv) as [Hv'|[Hv' He]].
            -- destruct (di_cl _ _ _ _ _ _ _ _ I v Hv') as (A & x & B & C). split; auto. exists x. split; auto. simpl. right. exact B.
            -- split; auto. exists u. split; auto. simpl. auto.
        + simpl. simpl in Hni. assert (S (S (length rest)) + length out <= n); [|lia].
          assert (E : length (Li.[q] :: stk_nodes ((u, p) :: rest) ++ out) <= n).
          { apply NoDup_bounded_length; [constructor; auto|]. intros x [<-|Hx]; auto. now apply (di_new _ _ _ _ _ _ _ _ I). }
          simpl in E. rewrite app_length in E. unfold stk_nodes in E. rewrite map_length in E. lia.
      - replace (length rest + length out <? n) with true by (symmetry; apply Nat.ltb_lt; lia). wp1.
        assert (Hsame : forall x, In x (stk_nodes rest ++ u :: out) <-> In x (stk_nodes ((u, p) :: rest) ++ out)).
        { intros x. simpl. rewrite !in_app_iff. simpl. tauto. }
        assert (OMeq : forall x, on_marked rest x \/ In x (u :: out) <-> on_marked ((u, Some p1) :: rest) x \/ In x out).
        { intros x. unfold on_marked. simpl. split.
          - intros [[q' E]|[<-|E]]; eauto.
          - intros [[q' [E|E]]|E]; eauto. inversion E; subst. auto. }
        split.
        + exists new'. constructor; auto.
          * apply (Permutation_NoDup (l := u :: stk_nodes rest ++ out)); [apply Permutation_middle|exact ND].
          * apply Hsame. exact (di_root _ _ _ _ _ _ _ _ I).
          * intros x Hx. apply (di_new _ _ _ _ _ _ _ _ I). now apply Hsame.
          * intros i Hi. destruct (di_tail _ _ _ _ _ _ _ _ I (S i)) as [q' Hq']; [simpl; lia|]. rewrite aget_cons_S in Hq'. eauto.
          * intros x Hx. apply M1. now apply OMeq.
          * intros x Hx. apply M2. rewrite <- OMeq. auto.
          * intros x p' [<-|Hx] Hp'; [auto|apply (MonoO x); auto].
          * intros P HP HPe x Hx. apply (di_reach _ _ _ _ _ _ _ _ I P); auto. now apply Hsame.
          * intros v Hv. destruct (N2 v Hv) as [Hv'|[Hv' He]].
            -- destruct (di_cl _ _ _ _ _ _ _ _ I v Hv') as (A & x & B & C). split; auto. exists x. split; auto. now apply Hsame.
            -- split; auto. exists u. split; auto. apply Hsame. simpl. auto.
        + simpl. lia. }
    unfold dfs_step. wp1. wp1; [lia|]. wp1. destruct (Z.eqb_spec m.[u] 0) as [E0|E0].
    + wp1. wp1; [lia|]. wp1. wp1; [lia|]. wp1. cbv iota. apply G; auto.
      * exact Logic.I.
      * now rewrite upd_length.
      * intros x Hx. rewrite aget_upd by lia. destruct (Nat.eqb_spec x u) as [->|Hxu]; auto.
        apply (di_in _ _ _ _ _ _ _ _ I). destruct Hx as [[q [E|E]]|Hx]; auto.
        -- inversion E; congruence.
        -- left. exists q. now right.
      * intros x Hx. assert (Hxu : x <> u) by (intros ->; apply Hx; left; exists Lp.[u]; now left).
        rewrite aget_upd_ne by auto. apply (di_out _ _ _ _ _ _ _ _ I). intros [[q [E|E]]|E]; apply Hx; auto.
        -- inversion E; congruence.
        -- left. exists q. now right.
      * intros x Hx. rewrite aget_upd by lia. destruct (x =? u); auto. lia.
      * specialize (Wm u Hu). lia.
    + wp1. cbv iota.
      destruct p as [p1|].
      * destruct (di_pos _ _ _ _ _ _ _ _ I u p1 ltac:(now left)) as [A B].
        apply G; auto; [exact Logic.I| |]; intros x Hx; [apply (di_in _ _ _ _ _ _ _ _ I)|apply (di_out _ _ _ _ _ _ _ _ I)]; auto.
      * exfalso. apply E0. rewrite (di_out _ _ _ _ _ _ _ _ I); auto. intros [[q [E|E]]|E].
        -- discriminate.
        -- apply (proj1 Hnr). eapply in_stk; eauto.
        -- now apply Hnr.
Qed.

End Dfs.

(** * Renumbering *)

Lemma make_unique_wp (n2p : list (option nat)) l ws (Q : option nat * (list nat * list bool) -> Prop) :
  (forall t, ws.[t] = false) ->
  (forall x, In x l -> x < length n2p /\ exists t, n2p.[x] = Some t /\ t < length ws) ->
  (forall mn l' ws', length ws' = length ws -> (forall t, ws'.[t] = false) ->
     (forall x, In x l' -> In x l) ->
     (forall x, In x l -> exists y, In y l' /\ n2p.[y] = n2p.[x]) ->
     (l = [] -> mn = None /\ l' = []) ->
     (l <> [] -> exists m x, mn = Some m /\ In x l /\ n2p.[x] = Some m /\
        forall y t, In y l -> n2p.[y] = Some t -> m <= t) -> Q (mn, (l', ws'))) ->
  wp (make_unique n2p l ws) Q.
Proof.
  intros Hws Hl HQ. unfold make_unique. wp1.
  apply (wp_foreach (fun pre '(mn, l', ws1) => length ws1 = length ws /\
     (forall x, In x l' -> In x pre) /\
     (forall x, In x pre -> exists y, In y l' /\ n2p.[y] = n2p.[x]) /\
     (forall t, ws1.[t] = true <-> exists x, In x l' /\ n2p.[x] = Some t) /\
     (pre = [] -> mn = None /\ l' = []) /\
     (pre <> [] -> exists m x, mn = Some m /\ In x pre /\ n2p.[x] = Some m /\
        forall y t, In y pre -> n2p.[y] = Some t -> m <= t))).
  - splits; auto.
    + intros x [].
    + intros t. rewrite Hws. split; [discriminate|]. intros [x [[] _]].
    + intros H. now elim H.
  - intros pre x post [[mn l'] ws1] E (I1 & I2 & I3 & I4 & I5 & I6).
    destruct (Hl x) as (Hx & t & Ht & Htw); [rewrite E; apply in_app_iff; right; now left|].
    wp1. wp1; [lia|]. rewrite Ht. wp1. wp1; [lia|].
    assert (Hpos : pre = [] \/ pre <> []) by (destruct pre; [now left|right; discriminate]).
    destruct ws1.[t] eqn:Ew.
    + wp1. pose proof Ew as Ew'. apply I4 in Ew'. destruct Ew' as (y & Hy & Hyt).
      assert (Hp : pre <> []) by (intros ->; now apply I2 in Hy).
      splits; auto.
      * intros z Hz. apply in_app_iff. auto.
      * intros z Hz. apply in_app_iff in Hz. destruct Hz as [Hz|[<-|[]]]; auto. exists y. split; auto. congruence.
      * intros H. destruct pre; discriminate.
      * intros _. destruct (I6 Hp) as (m & z & A & B & C & D). exists m, z. splits; auto.
        -- apply in_app_iff. auto.
        -- intros y' t' Hy' Ht'. apply in_app_iff in Hy'. destruct Hy' as [Hy'|[<-|[]]]; eauto.
           rewrite Ht in Ht'. inversion Ht'; subst. apply (D y); auto.
    + wp1. wp1; [lia|]. wp1. splits.
      * now rewrite upd_length.
      * intros z Hz. apply in_app_iff in Hz. apply in_app_iff. destruct Hz as [Hz|[<-|[]]]; auto. right. now left.
      * intros z Hz. apply in_app_iff in Hz. destruct Hz as [Hz|[<-|[]]].
        -- destruct (I3 z Hz) as (y & Hy & Ey). exists y. split; auto. apply in_app_iff. auto.
        -- exists x. split; auto. apply in_app_iff. right. now left.
      * intros t'. rewrite aget_upd by lia. destruct (Nat.eqb_spec t' t) as [->|Hne].
        -- split; auto. intros _. exists x. split; auto. apply in_app_iff. right. now left.
        -- rewrite I4. split; intros (y & Hy & Ey).
           ++ exists y. split; auto. apply in_app_iff. auto.
           ++ apply in_app_iff in Hy. destruct Hy as [Hy|[<-|[]]]; eauto. congruence.
      * intros H. destruct pre; discriminate.
      * intros _. destruct Hpos as [Hp|Hp].
        -- destruct (I5 Hp) as [-> ->]. exists t, x. splits; auto.
           ++ apply in_app_iff. right. now left.
           ++ subst pre. intros y t' [<-|[]] Ht'. rewrite Ht in Ht'. inversion Ht'. lia.
        -- destruct (I6 Hp) as (m & z & -> & B & C & D). destruct (Nat.ltb_spec t m).
           ++ exists t, x. splits; auto.
              ** apply in_app_iff. right. now left.
              ** intros y t' Hy Ht'. apply in_app_iff in Hy. destruct Hy as [Hy|[<-|[]]].
                 --- specialize (D y t' Hy Ht'). lia.
                 --- rewrite Ht in Ht'. inversion Ht'. lia.
           ++ exists m, z. splits; auto.
              ** apply in_app_iff. auto.
              ** intros y t' Hy Ht'. apply in_app_iff in Hy. destruct Hy as [Hy|[<-|[]]]; eauto.
                 rewrite Ht in Ht'. inversion Ht'. lia.
  - intros [[mn l'] ws1] (I1 & I2 & I3 & I4 & I5 & I6). wp1.
    apply (wp_foreach (fun pre ws2 => length ws2 = length ws /\
      forall t, ws2.[t] = true -> exists x, In x l' /\ n2p.[x] = Some t /\ ~ In x pre)).
    + split; auto. intros t Ht. apply I4 in Ht. destruct Ht as (x & A & B). exists x. splits; auto.
    + intros pre x post ws2 E (J1 & J2).
      assert (Hx' : In x l') by (rewrite E; apply in_app_iff; right; now left).
      destruct (Hl x) as (Hx & t & Ht & Htw); [now apply I2|].
      wp1. wp1; [lia|]. rewrite Ht. wp1; [lia|]. rewrite upd_length. split; auto.
      intros t' Ht'. rewrite aget_upd in Ht' by lia. destruct (Nat.eqb_spec t' t) as [Et|Et]; [discriminate|].
      destruct (J2 t' Ht') as (y & A & B & C). exists y. splits; auto.
      intros D. apply in_app_iff in D. destruct D as [D|[<-|[]]]; auto. congruence.
    + intros ws2 (J1 & J2). wp1. apply HQ; auto.
      intros t. destruct ws2.[t] eqn:E; auto. destruct (J2 t E) as (x & A & _ & C). now elim C.
Qed.

Lemma alias_parts_wp n (n2p : list (option nat)) l mn (Q : list (option nat) -> Prop) :
  length n2p = n -> (forall x, In x l -> x < n /\ n2p.[x] <> None) ->
  (forall r, length r = n ->
     (forall v, v < n -> In n2p.[v] (map (aget n2p) l) -> r.[v] = Some mn) ->
     (forall v, v < n -> ~ In n2p.[v] (map (aget n2p) l) -> r.[v] = n2p.[v]) -> Q r) ->
  wp (alias_parts n n2p l mn) Q.
Proof.
  intros HL Hl HQ. unfold alias_parts.
  apply (wp_foreach (fun pre r => length r = n /\
     (forall v, v < n -> In n2p.[v] (map (aget n2p) pre) -> r.[v] = Some mn) /\
     (forall v, v < n -> ~ In n2p.[v] (map (aget n2p) pre) -> r.[v] = n2p.[v]))).
  - splits; auto. intros v Hv [].
  - intros pre x post r E (I1 & I2 & I3).
    destruct (Hl x) as [Hx Hxn]; [rewrite E; apply in_app_iff; right; now left|].
    assert (Hdec : forall v, In n2p.[v] (map (aget n2p) pre) \/ ~ In n2p.[v] (map (aget n2p) pre)).
    { intros v. destruct (in_dec (fun a b : option nat => ltac:(decide equality; apply Nat.eq_dec)) n2p.[v] (map (aget n2p) pre)); auto. }
    wp1. wp1; [lia|]. destruct r.[x] as [t|] eqn:Er.
    2:{ exfalso. destruct (Hdec x) as [H|H]; [rewrite I2 in Er by auto; discriminate|]. rewrite I3 in Er by auto. auto. }
    assert (Hout : forall v, In n2p.[v] (map (aget n2p) (pre ++ [x])) <-> In n2p.[v] (map (aget n2p) pre) \/ n2p.[v] = n2p.[x]).
    { intros v. rewrite map_app, in_app_iff. simpl. split; intros [H|H]; auto. destruct H as [H|[]]; auto. }
    destruct (Nat.eqb_spec t mn) as [->|Hne].
    + wp1. splits; auto.
      * intros v Hv H. apply Hout in H. destruct H as [H|H]; auto.
        destruct (Hdec v) as [Hd|Hd]; auto. rewrite I3 by auto. rewrite H.
        rewrite H in Hd. rewrite I3 in Er by auto. auto.
      * intros v Hv H. apply I3; auto. intros C. apply H. apply Hout. auto.
    + assert (Hnx : ~ In n2p.[x] (map (aget n2p) pre)) by (intros C; rewrite I2 in Er by auto; congruence).
      assert (Ex : n2p.[x] = Some t) by (rewrite I3 in Er by auto; auto).
      apply (wp_for (fun i r' => length r' = n /\ forall v, v < n ->
         r'.[v] = if v <? i then (match r.[v] with Some u => if u =? t then Some mn else Some u | None => None end) else r.[v])).
      * lia.
      * split; auto.
      * intros i r' Hi (J1 & J2). wp1. wp1; [lia|]. rewrite J2 by lia. rewrite Nat.ltb_irrefl.
        assert (St : forall r'', length r'' = n -> (forall v, v <> i -> r''.[v] = r'.[v]) ->
           r''.[i] = match r.[i] with Some u => if u =? t then Some mn else Some u | None => None end ->
           forall v, v < n -> r''.[v] = if v <? S i then (match r.[v] with Some u => if u =? t then Some mn else Some u | None => None end) else r.[v]).
        { intros r'' _ A B v Hv. destruct (Nat.eq_dec v i) as [->|].
          - replace (i <? S i) with true by lia. auto.
          - rewrite A, J2 by auto. replace (v <? S i) with (v <? i) by lia. auto. }
        destruct r.[i] as [u|] eqn:Ei.
        -- destruct (Nat.eqb_spec u t) as [->|Hut].
           ++ wp1; [lia|]. rewrite upd_length. split; auto. apply St; auto.
              ** now rewrite upd_length.
              ** intros v Hv. rewrite aget_upd_ne by auto. auto.
              ** now rewrite aget_upd_eq by lia.
           ++ wp1. split; auto. apply St; auto. rewrite J2, Nat.ltb_irrefl by lia. rewrite Ei. auto.
        -- wp1. split; auto. apply St; auto. rewrite J2, Nat.ltb_irrefl by lia. now rewrite Ei.
      * intros r' (J1 & J2). splits; auto.
        -- intros v Hv H. rewrite J2 by auto. replace (v <? n) with true by lia. apply Hout in H.
           destruct (Hdec v) as [Hd|Hd].
           ++ rewrite I2 by auto. destruct (mn =? t); auto.
           ++ destruct H as [H|H]; [contradiction|]. rewrite I3 by auto. rewrite H, Ex. now rewrite Nat.eqb_refl.
        -- intros v Hv H. rewrite J2 by auto. replace (v <? n) with true by lia.
           assert (H1 : ~ In n2p.[v] (map (aget n2p) pre)) by (intros C; apply H; apply Hout; auto).
           assert (H2 : n2p.[v] <> n2p.[x]) by (intros C; apply H; apply Hout; auto).
           rewrite I3 by auto. destruct n2p.[v] as [u|]; auto. destruct (Nat.eqb_spec u t); congruence.
  - intros r (I1 & I2 & I3). apply HQ; auto.
Qed.

Lemma number_nodes_wp {T} `{Dflt T} (add : T -> T -> T) n n2l (nodeCost : list T) a c nodes (n2p : list (option nat)) (oc : list T) m
    (Q : list (option nat) * list T * list Z -> Prop) :
  length n2p = n -> length m = n -> n <= length n2l -> n <= length nodeCost -> c < length oc ->
  (forall v, In v nodes -> v < n) ->
  (forall n2p' oc' m', length n2p' = n -> length oc' = length oc -> length m' = n ->
     (forall v, v < n -> In v nodes -> n2p'.[v] = Some c) ->
     (forall v, v < n -> ~ In v nodes -> n2p'.[v] = n2p.[v]) ->
     (forall v, v < n -> In v nodes -> n2l.[v] <> a -> m'.[v] = (-1)%Z) ->
     (forall v, v < n -> ~ In v nodes \/ n2l.[v] = a -> m'.[v] = m.[v]) -> Q (n2p', oc', m')) ->
  wp (number_nodes add n2l nodeCost a c nodes n2p oc m) Q.
Proof.
  intros H1 H2 H3 H4 H5 H6 HQ. unfold number_nodes.
  apply (wp_foreach (fun pre '(n2p', oc', m') => length n2p' = n /\ length oc' = length oc /\ length m' = n /\
     (forall v, v < n -> In v pre -> n2p'.[v] = Some c) /\
     (forall v, v < n -> ~ In v pre -> n2p'.[v] = n2p.[v]) /\
     (forall v, v < n -> In v pre -> n2l.[v] <> a -> m'.[v] = (-1)%Z) /\
     (forall v, v < n -> ~ In v pre \/ n2l.[v] = a -> m'.[v] = m.[v]))).
  - splits; auto; intros v Hv [].
  - intros pre x post [[n2p' oc'] m'] E (I1 & I2 & I3 & I4 & I5 & I6 & I7).
    assert (Hx : x < n) by (apply H6; rewrite E; apply in_app_iff; right; now left).
    wp1. wp1; [lia|]. wp1. wp1; [lia|]. wp1. wp1; [lia|]. wp1. wp1; [lia|]. wp1. wp1; [lia|]. wp1.
    assert (Hin : forall v, In v (pre ++ [x]) <-> In v pre \/ v = x).
    { intros v. rewrite in_app_iff. simpl. split; intros [A|A]; auto. destruct A as [A|[]]; auto. }
    assert (G : forall m'', length m'' = n -> (forall v, v <> x -> m''.[v] = m'.[v]) ->
       (n2l.[x] <> a -> m''.[x] = (-1)%Z) -> (n2l.[x] = a -> m''.[x] = m'.[x]) ->
       wp (Ok (upd n2p' x (Some c), upd oc' c (add oc'.[c] nodeCost.[x]), m'')) (fun '(n2p', oc', m') => length n2p' = n /\ length oc' = length oc /\ length m' = n /\
     (forall v, v < n -> In v (pre ++ [x]) -> n2p'.[v] = Some c) /\
     (forall v, v < n -> ~ In v (pre ++ [x]) -> n2p'.[v] = n2p.[v]) /\
     (forall v, v < n -> In v (pre ++ [x]) -> n2l.[v] <> a -> m'.[v] = (-1)%Z) /\
     (forall v, v < n -> ~ In v (pre ++ [x]) \/ n2l.[v] = a -> m'.[v] = m.[v]))).
    { intros m'' L A B C. wp1. rewrite !upd_length. splits; auto.
      - intros v Hv Hi. rewrite aget_upd by lia. destruct (Nat.eqb_spec v x); auto. apply Hin in Hi. destruct Hi; [auto|lia].
      - intros v Hv Hi. rewrite Hin in Hi. rewrite aget_upd_ne; [|intros ->; tauto]. apply I5; tauto.
      - intros v Hv Hi Ha. apply Hin in Hi. destruct (Nat.eq_dec v x) as [->|]; auto. rewrite A by auto. destruct Hi; [auto|lia].
      - intros v Hv Hi. rewrite Hin in Hi. destruct (Nat.eq_dec v x) as [->|].
        + destruct Hi as [Hi|Hi]; [tauto|]. rewrite C by auto. auto.
        + rewrite A by auto. apply I7; tauto. }
    destruct (Nat.eqb_spec n2l.[x] a) as [Ea|Ea].
    + wp1. apply G; auto. intros; lia.
    + wp1; [lia|]. apply G.
      * now rewrite upd_length.
      * intros v Hv. now rewrite aget_upd_ne by auto.
      * intros _. now rewrite aget_upd_eq by lia.
      * intros; lia.
  - intros [[n2p' oc'] m'] (I1 & I2 & I3 & I4 & I5 & I6 & I7). apply HQ; auto.
Qed.
