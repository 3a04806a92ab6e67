(** Lemmas for level_set_multi_graphs: the levels. *)
From Verif Require Import Base Lib Spec SpecMulti L_Util L_LBC4 L_LBC5 M_Multi L_Multi.
From Coq Require Import ZifyBool ZifyNat.

Lemma in_concat_aget (L : list (list nat)) y : In y (concat L) <-> exists l, l < length L /\ In y L.[l].
Proof.
  rewrite in_concat. split.
  - intros (x & Hx & Hy). apply In_aget in Hx. destruct Hx as (l & Hl & <-). eauto.
  - intros (l & Hl & Hy). exists L.[l]. split; [now apply aget_In|auto].
Qed.
Lemma concat_snoc {A} (L : list (list A)) x : concat (L ++ [x]) = concat L ++ x.
Proof. rewrite concat_app. simpl. now rewrite app_nil_r. Qed.
Lemma concat_ge (L : list (list nat)) : (forall l, In l L -> l <> []) -> length L <= length (concat L).
Proof.
  induction L as [|x L IH]; intros H; [simpl; lia|]. simpl. rewrite app_length.
  specialize (IH (fun l Hl => H l (or_intror Hl))). specialize (H x (or_introl eq_refl)). destruct x; [congruence|]. simpl. lia.
Qed.

Section S.
Variables (n K : nat) (Lp Li : list nat).
Hypothesis HW : wf_csc n Lp Li.
Hypothesis HK : 1 <= K.
Local Notation tl := (tail_edge n Lp Li).
Local Notation ME := (copies_edge n K tl).

Record lev_inv (LQ : list (list nat)) : Prop := {
  k_back : forall l v q, l < length LQ -> v < n -> In (v + n * S q) LQ.[l] -> exists l', l = S l' /\ In (v + n * q) LQ.[l'];
  k_next : forall l v q, S l < length LQ -> S q < K -> v < n -> In (v + n * q) LQ.[l] -> In (v + n * S q) LQ.[S l];
  k_pred : forall l v, S l < length LQ -> v < n -> In v LQ.[S l] -> exists u, In u LQ.[l] /\ tl u v;
  k_edge : forall l v u, l < length LQ -> v < n -> In v LQ.[l] -> tl u v -> exists l', l' < l /\ In u LQ.[l'] }.

Variable deg : list Z.
Hypothesis Hdeg1 : length deg = K * n.
Hypothesis Hdeg2 : forall v q, v < n -> q < K -> deg.[v + n * q] = (base q + Z.of_nat (R n Lp Li [] q v))%Z.
Local Notation st := (st_in n K Lp Li deg).

Lemma level_wp Ls Qu vis inq levels (Q : mq * list nat * nat -> Prop) :
  st (concat Ls) Qu zero2 vis inq -> lev_inv (Ls ++ [Qu]) -> length levels = K * n ->
  (forall i, i < length (concat Ls) -> levels.[i] = (concat Ls).[i]) ->
  (forall N vis' inq' levels', st (concat (Ls ++ [Qu])) N zero2 vis' inq' -> lev_inv ((Ls ++ [Qu]) ++ [N]) -> length levels' = K * n ->
     (forall i, i < length (concat (Ls ++ [Qu])) -> levels'.[i] = (concat (Ls ++ [Qu])).[i]) ->
     Q ((N, vis', inq', length N), levels', length (concat (Ls ++ [Qu])))) ->
  wp (for_ 0 (length Qu) (fun _ => multi_node n K Lp Li deg) ((Qu, vis, inq, 0), levels, length (concat Ls))) Q.
Proof.
  intros HS HV HL HLv HQ.
  set (I := fun (i : nat) (s : mq * list nat * nat) => let '((W, vis', inq', next), levels', lev_num) := s in
    exists N, W = skipn i Qu ++ N /\ next = length N /\ lev_num = length (concat Ls ++ firstn i Qu) /\
      st (concat Ls ++ firstn i Qu) W zero2 vis' inq' /\ length levels' = K * n /\
      (forall j, j < length (concat Ls ++ firstn i Qu) -> levels'.[j] = (concat Ls ++ firstn i Qu).[j]) /\
      (forall v q, v < n -> (In (v + n * S q) N <-> S q < K /\ In (v + n * q) (firstn i Qu))) /\
      (forall v, v < n -> In v N -> exists u, In u (firstn i Qu) /\ tl u v)).
  apply (wp_for I); [lia| | |].
  - exists []. simpl. rewrite !app_nil_r. split; [auto|]. split; [auto|]. split; [auto|]. split; [auto|]. split; [auto|]. split; [auto|].
    split; [intros v q Hv; split; [intros []|intros [_ []]]|intros v Hv []].
  - intros i [[[[[W vis'] inq'] next] levels'] lev_num] Hi (N & -> & -> & -> & HS1 & HL1 & HLv1 & HN1 & HN2).
    assert (Esk : skipn i Qu = Qu.[i] :: skipn (S i) Qu).
    { clear -Hi. revert i Hi. induction Qu as [|a Q IH]; intros i Hi; [simpl in Hi; lia|]. destruct i; [auto|].
      simpl in Hi. rewrite aget_cons_S. simpl. apply IH. lia. }
    assert (Efi : firstn (S i) Qu = firstn i Qu ++ [Qu.[i]]).
    { clear -Hi. revert i Hi. induction Qu as [|a Q IH]; intros i Hi; [simpl in Hi; lia|]. destruct i; [auto|].
      simpl in Hi. rewrite aget_cons_S. cbn [firstn app]. f_equal. apply IH. lia. }
    set (x := Qu.[i]) in *. rewrite Esk in *. cbn [app] in *.
    assert (HxQ : In x Qu) by (apply aget_In; lia).
    destruct HS1 as [S1 S2 S3 S4 S5 S6 S7 S8] eqn:EHS. clear EHS.
    pose proof HS1 as HS1'. 
    assert (Hx : x < K * n) by (apply S4; rewrite !in_app_iff; right; now left).
    destruct (copy_form n K x Hx) as (u0 & q0 & Hu & Hq & Ex).
    assert (HxP : ~ In x (concat Ls ++ firstn i Qu)).
    { pose proof (NoDup_remove_2 _ _ _ S3) as H. intros H1. apply H. apply in_app_iff. auto. }
    apply (node_wp n K Lp Li HW HK deg Hdeg1 Hdeg2 (concat Ls ++ firstn i Qu) (skipn (S i) Qu ++ N) x vis' inq' (length N) levels' _ _ u0 q0); auto.
    + intros Hq1 Hin.
      assert (HA : In (u0 + n * S q0) (concat (Ls ++ [Qu])) \/ In (u0 + n * S q0) N).
      { rewrite concat_snoc. rewrite <- (firstn_skipn i Qu), Esk. clear -Hin. rewrite !in_app_iff in *. cbn [In] in *. rewrite in_app_iff in Hin. intuition. }
      destruct HA as [HA|HA].
      * apply in_concat_aget in HA. destruct HA as (l & Hl & HA). apply (k_back _ HV) in HA; auto. destruct HA as (l' & -> & HA).
        rewrite app_length in Hl. simpl in Hl. rewrite aget_app1 in HA by lia.
        apply HxP. apply in_app_iff. left. apply in_concat_aget. exists l'. rewrite Ex. split; [lia|auto].
      * apply HN1 in HA; auto. destruct HA as [_ HA]. apply HxP. apply in_app_iff. right. now rewrite Ex.
    + intros W1 vis2 inq2 levels2 W2 HW1 HS2 HL2 HLv2. exists (N ++ W2).
      rewrite Efi. rewrite (app_assoc (concat Ls)). rewrite <- (app_assoc (skipn (S i) Qu) N W2) in HS2 |- *.
      split; [auto|]. split; [now rewrite app_length|]. split; [auto|]. split; [auto|]. split; [auto|]. split; [auto|].
      assert (EW2 : forall y, In y W2 <-> In y W1 \/ (S q0 < K /\ y = u0 + n * S q0)).
      { intros y. unfold W2. destruct (Nat.ltb_spec (S q0) K); [rewrite in_app_iff; simpl; intuition|intuition lia]. }
      split.
      * intros v q Hv. rewrite !in_app_iff, HN1, EW2 by auto. simpl. split.
        -- intros [[A B]|[A|[A B]]]; [intuition| |].
           ++ apply HW1 in A. destruct A as [A _]. nia.
           ++ apply copy_inj in B; auto. destruct B as [-> B]. injection B as ->. split; [lia|]. right. left. now rewrite Ex.
        -- intros [A [B|[B|[]]]]; [intuition|]. rewrite Ex in B. apply copy_inj in B; auto. destruct B as [-> ->]. right. right. split; [lia|auto].
      * intros v Hv Hin. rewrite in_app_iff, EW2 in Hin. destruct Hin as [Hin|[Hin|[A B]]].
        -- destruct (HN2 v Hv Hin) as (u & A & B). exists u. rewrite in_app_iff. auto.
        -- apply HW1 in Hin. destruct Hin as (_ & E0 & Ht). exists u0. split; [|auto]. apply in_app_iff. right. left. rewrite Ex, E0. lia.
        -- nia.
  - intros [[[[[W vis'] inq'] next] levels'] lev_num] (N & -> & -> & -> & HS1 & HL1 & HLv1 & HN1 & HN2).
    rewrite skipn_all, firstn_all in *. cbn [app] in *. rewrite concat_snoc in HQ. apply HQ; auto.
    destruct HS as [S1 S2 S3 S4 S5 S6 S7 S8]. destruct HS1 as [T1 T2 T3 T4 T5 T6 T7 T8].
    destruct HV as [V1 V2 V3 V4].
    assert (Hc : length (Ls ++ [Qu]) = S (length Ls)) by (rewrite app_length; simpl; lia).
    assert (Elast : ((Ls ++ [Qu]) ++ [N]).[S (length Ls)] = N) by (rewrite <- Hc; apply aget_app_last).
    assert (EQ : (Ls ++ [Qu]).[length Ls] = Qu) by apply aget_app_last.
    constructor; rewrite app_length, Hc; simpl length.
    + intros l v q Hl Hv Hin. destruct (Nat.eq_dec l (S (length Ls))) as [->|Hne].
      * rewrite Elast in Hin. apply HN1 in Hin; auto. exists (length Ls). split; [auto|]. rewrite aget_app1 by lia. rewrite EQ. tauto.
      * rewrite aget_app1 in Hin by lia. apply V1 in Hin; [|lia|auto]. destruct Hin as (l' & -> & Hin). exists l'. split; [auto|].
        rewrite aget_app1 by lia. auto.
    + intros l v q Hl Hq Hv Hin. destruct (Nat.eq_dec l (length Ls)) as [->|Hne].
      * rewrite Elast. apply HN1; auto. rewrite aget_app1, EQ in Hin by lia. auto.
      * rewrite aget_app1 in Hin |- * by lia. apply V2; auto. lia.
    + intros l v Hl Hv Hin. destruct (Nat.eq_dec l (length Ls)) as [->|Hne].
      * rewrite Elast in Hin. destruct (HN2 v Hv Hin) as (u & A & B). exists u. rewrite aget_app1, EQ by lia. auto.
      * rewrite aget_app1 in Hin |- * by lia. apply V3; auto. lia.
    + intros l v u Hl Hv Hin Ht. destruct (Nat.eq_dec l (S (length Ls))) as [->|Hne].
      * rewrite Elast in Hin. assert (E0 : R n Lp Li (concat Ls ++ Qu) 0 v = 0).
        { pose proof (T6 v Hv ltac:(rewrite in_app_iff; auto)). lia. }
        apply (R_zero n K Lp Li HW HK) with (u := u) in E0; auto. rewrite Nat.mul_0_r, Nat.add_0_r, <- concat_snoc in E0.
        apply in_concat_aget in E0. destruct E0 as (l' & Hl' & E0). exists l'. split; [lia|]. rewrite aget_app1 by lia. auto.
      * rewrite aget_app1 in Hin by lia. destruct (V4 l v u ltac:(lia) Hv Hin Ht) as (l' & Hl' & A). exists l'. split; [auto|].
        rewrite aget_app1 by lia. auto.
Qed.
End S.

(** the outcome *)
Record multi_ok (n K : nat) (Lp Li : list nat) (Ls : list (list nat)) (lp ls : list nat) : Prop := {
  mo_rep : rep Ls lp ls;
  mo_lp : length lp = S (length Ls);
  mo_ls : length ls = K * n;
  mo_nodup : NoDup (concat Ls);
  mo_lt : forall x, In x (concat Ls) -> x < K * n;
  mo_ne : forall l, In l Ls -> l <> [];
  mo_inv : lev_inv n K Lp Li Ls;
  mo_zero : forall v, v < n -> (forall u, tail_edge n Lp Li u v -> In u (concat Ls)) -> In v (concat Ls);
  mo_copy : forall v q, v < n -> S q < K -> In (v + n * q) (concat Ls) -> In (v + n * S q) (concat Ls) }.

Lemma level_set_multi_wp n K Lp Li (Q : nat * (list nat * list nat) -> Prop) :
  wf_csc n Lp Li -> 1 <= K ->
  (forall Ls lp ls, multi_ok n K Lp Li Ls lp ls -> Q (length Ls, (lp, ls))) ->
  wp (level_set_multi_graphs n Lp Li K) Q.
Proof.
  intros HW HK HQ. unfold level_set_multi_graphs. apply wp_bind. apply degrees_wp; auto.
  intros deg Hdeg1 Hdeg2.
  assert (Hkn : n <= K * n) by nia.
  apply wp_bind.
  apply (wp_for (fun i '(queue, inq) => length inq = K * n /\ NoDup queue /\ (forall x, In x queue <-> x < i /\ R n Lp Li [] 0 x = 0) /\
     (forall x, x < K * n -> inq.[x] = mem x queue))); [lia| | |].
  - split; [apply repeat_length|]. split; [constructor|]. split; [intros x; split; [intros []|lia]|]. intros x Hx. now rewrite aget_repeat.
  - intros i [queue inq] Hi (I1 & I2 & I3 & I4). wq; [lia|].
    assert (Ed : deg.[i] = Z.of_nat (R n Lp Li [] 0 i)).
    { pose proof (Hdeg2 i 0 ltac:(lia) ltac:(lia)) as E. rewrite Nat.mul_0_r, Nat.add_0_r in E. unfold base in E. simpl in E. lia. }
    rewrite Ed. destruct (Z.of_nat (R n Lp Li [] 0 i) =? 0)%Z eqn:E0.
    + wq; [lia|]. apply wp_ret. split; [now rewrite upd_length|]. split; [|split].
      * apply NoDup_app_intro; [auto|constructor; [intros []|constructor]|]. intros x Hx [<-|[]]. apply I3 in Hx. lia.
      * intros x. rewrite in_app_iff, I3. simpl. split; [intros [A|[<-|[]]]; [lia|split; lia]|].
        intros [A B]. destruct (Nat.eq_dec x i) as [->|]; [auto|]. left. split; [lia|auto].
      * intros x Hx. rewrite aget_upd by lia. destruct (Nat.eqb_spec x i) as [->|Hne].
        -- symmetry. apply mem_In. apply in_app_iff. right. now left.
        -- rewrite I4 by auto. apply mem_iff. rewrite in_app_iff. simpl. intuition congruence.
    + apply wp_ret. split; [auto|]. split; [auto|]. split; [|auto]. intros x. rewrite I3. split; [intros [A B]; split; [lia|auto]|].
      intros [A B]. split; [|auto]. assert (x <> i) by (intros ->; lia). lia.
  - intros [queue inq] (I1 & I2 & I3 & I4). wq; [rewrite repeat_length; lia|].
    apply wp_bind.
    apply (wp_while (fun '(queue, vis, inq, levels, lev_num, cur, lp, cur_n) => exists Ls,
       st_in n K Lp Li deg (concat Ls) queue zero2 vis inq /\ lev_inv n K Lp Li (Ls ++ [queue]) /\ length levels = K * n /\
       (forall i, i < length (concat Ls) -> levels.[i] = (concat Ls).[i]) /\ lev_num = length (concat Ls) /\ cur = length Ls /\
       cur_n = length queue /\ (forall l, In l Ls -> l <> []) /\ length lp = K * n + 1 /\
       (forall i, i <= length Ls -> lp.[i] = length (concat (firstn i Ls))))
      (fun '(queue, vis, inq, levels, lev_num, cur, lp, cur_n) => K * n - cur)).
    + exists []. split; [|split; [|]].
      * constructor; auto.
        -- apply repeat_length.
        -- intros x Hx. simpl in Hx. apply I3 in Hx. lia.
        -- intros v Hv Hin. simpl in Hin. apply I3 in Hin. unfold zero2. simpl concat. lia.
        -- intros v Hv Hin. simpl in Hin. simpl concat. unfold zero2. rewrite aget_repeat by lia.
           pose proof (Hdeg2 v 0 Hv ltac:(lia)) as E. rewrite Nat.mul_0_r, Nat.add_0_r in E. unfold base in E. simpl in E.
           split; [|lia]. destruct (Nat.eq_dec (R n Lp Li [] 0 v) 0) as [E0|]; [|lia]. exfalso. apply Hin. apply I3. auto.
        -- intros v q Hv Hq. rewrite aget_repeat by (apply copy_lt; lia). rewrite Hdeg2 by lia. unfold base, zero2. simpl concat.
           replace (q =? 0) with false by (symmetry; apply Nat.eqb_neq; lia). cbn [mem existsb b2n]. lia.
      * cbn [app]. constructor; simpl length.
        -- intros l v q Hl Hv Hin. replace l with 0 in Hin by lia. rewrite aget_cons_0 in Hin. apply I3 in Hin. nia.
        -- intros; lia.
        -- intros; lia.
        -- intros l v u Hl Hv Hin Ht. replace l with 0 in Hin by lia. rewrite aget_cons_0 in Hin. apply I3 in Hin. destruct Hin as [_ Hin].
           apply (R_zero n K Lp Li HW HK) with (u := u) in Hin; [destruct Hin|auto].
      * split; [apply repeat_length|]. split; [simpl; intros; lia|]. split; [auto|]. split; [auto|]. split; [auto|]. split; [intros l []|].
        split; [rewrite upd_length; apply repeat_length|]. intros i Hi. simpl in Hi. replace i with 0 by lia. simpl.
        rewrite aget_upd_eq by (rewrite repeat_length; lia). auto.
    + lia.
    + intros [[[[[[[qu vis] iq] levels] lev_num] cur] lp] cur_n] (Ls & HS & HV & HL & HLv & -> & -> & -> & Hne & Hlp & Hlpv).
      apply wp_ret. destruct (Nat.eqb_spec (length qu) 0) as [E0|E0]; cbn [negb].
      * destruct qu; [|simpl in E0; lia]. clear E0. apply wp_ret.
        destruct HS as [S1 S2 S3 S4 S5 S6 S7 S8]. rewrite app_nil_r in *. 
        assert (HcL : length (concat Ls) <= K * n) by now apply NoDup_bounded_length.
        pose proof (concat_ge Ls Hne) as HLs.
        apply HQ. constructor; auto.
        -- split; [|auto]. intros i Hi. rewrite aget_firstn by lia. auto.
        -- rewrite firstn_length. lia.
        -- destruct HV as [V1 V2 V3 V4]. rewrite app_length in *. cbn [length] in *. constructor.
           ++ intros l v q Hl Hv Hin. destruct (V1 l v q ltac:(lia) Hv) as (l' & -> & A); [rewrite aget_app1 by lia; auto|].
              exists l'. rewrite aget_app1 in A by lia. auto.
           ++ intros l v q Hl Hq Hv Hin. specialize (V2 l v q ltac:(lia) Hq Hv). rewrite !aget_app1 in V2 by lia. auto.
           ++ intros l v Hl Hv Hin. specialize (V3 l v ltac:(lia) Hv). rewrite !aget_app1 in V3 by lia. auto.
           ++ intros l v u Hl Hv Hin Ht. specialize (V4 l v u ltac:(lia) Hv). rewrite !aget_app1 in V4 by lia.
              destruct (V4 Hin Ht) as (l' & Hl' & A). exists l'. rewrite aget_app1 in A by lia. auto.
        -- intros v Hv Hall. destruct (mem v (concat Ls)) eqn:M; [now apply mem_In|]. apply mem_false in M.
           destruct (S7 v Hv M) as [T _]. unfold zero2 in T. assert (R n Lp Li (concat Ls) 0 v = 0); [|lia].
           apply (R_zero n K Lp Li HW HK). intros u Hu. rewrite Nat.mul_0_r, Nat.add_0_r. auto.
        -- intros v q Hv Hq Hin. apply in_concat_aget in Hin. destruct Hin as (l & Hl & Hin).
           pose proof (k_next _ _ _ _ _ HV l v q) as V2. rewrite app_length in V2. simpl in V2. specialize (V2 ltac:(lia) Hq Hv).
           rewrite aget_app1 in V2 by lia. specialize (V2 Hin). apply in_concat_aget. destruct (Nat.eq_dec (S l) (length Ls)) as [El|El].
           ++ rewrite El, aget_app_last in V2. destruct V2.
           ++ exists (S l). rewrite aget_app1 in V2 by lia. split; [lia|auto].
      * assert (Hq0 : qu <> []) by (intros ->; simpl in E0; lia).
        assert (HcL : length (concat (Ls ++ [qu])) <= K * n).
        { destruct HS as [S1 S2 S3 S4 _ _ _ _]. rewrite concat_snoc. now apply NoDup_bounded_length. }
        rewrite concat_snoc, app_length in HcL. pose proof (concat_ge Ls Hne) as HLs.
        wq; [lia|]. wq; [lia|]. apply wp_bind. apply (level_wp n K Lp Li HW HK deg Hdeg1 Hdeg2); auto.
        intros N vis' inq' levels' HS' HV' HL' HLv'. apply wp_ret. split; [|lia].
        exists (Ls ++ [qu]). split; [auto|]. split; [auto|]. split; [auto|]. split; [auto|]. split; [auto|].
        split; [rewrite app_length; simpl; lia|]. split; [auto|]. split.
        { intros l Hl. apply in_app_iff in Hl. destruct Hl as [Hl|[<-|[]]]; auto. }
        split; [now rewrite upd_length|]. intros i Hi. rewrite app_length in Hi. simpl in Hi. rewrite aget_upd by lia.
        destruct (Nat.eqb_spec i (S (length Ls))) as [->|Hi'].
        -- rewrite firstn_all2 by (rewrite app_length; simpl; lia). rewrite concat_snoc, app_length. rewrite Hlpv by lia.
           now rewrite firstn_all2 by lia.
        -- rewrite firstn_app. replace (i - length Ls) with 0 by lia. rewrite app_nil_r. apply Hlpv. lia.
Qed.

(** * Levels are depths *)
Section D.
Variables (n K : nat) (Lp Li : list nat) (Ls : list (list nat)) (lp ls : list nat).
Hypothesis HW : wf_csc n Lp Li.
Hypothesis HK : 1 <= K.
Hypothesis HM : multi_ok n K Lp Li Ls lp ls.
Local Notation tl := (tail_edge n Lp Li).
Local Notation ME := (copies_edge n K tl).

Lemma ME_lt x y : ME x y -> x < K * n /\ y < K * n.
Proof.
  intros [(q & u & v & Hq & Hu & Hv & _ & -> & ->)|(q & u & Hq & Hu & -> & ->)]; split; apply copy_lt; lia.
Qed.

Lemma lv_edge l x y : l < length Ls -> In y Ls.[l] -> ME x y -> exists l', l' < l /\ In x Ls.[l'].
Proof.
  destruct (mo_inv _ _ _ _ _ _ _ HM) as [V1 V2 V3 V4].
  intros Hl Hy [(q & u & v & Hq & Hu & Hv & Ht & -> & ->)|(q & u & Hq & Hu & -> & ->)].
  - revert l Hl Hy Hq. induction q as [|q IH]; intros l Hl Hy Hq.
    + rewrite Nat.mul_0_r, !Nat.add_0_r in *. eauto.
    + apply V1 in Hy; auto. destruct Hy as (l' & -> & Hy). destruct (IH l' ltac:(lia) Hy ltac:(lia)) as (l2 & Hl2 & A).
      exists (S l2). split; [lia|]. apply V2; auto. lia.
  - apply V1 in Hy; auto. destruct Hy as (l' & -> & Hy). exists l'. split; [lia|auto].
Qed.

Lemma lv_pred l y : S l < length Ls -> In y Ls.[S l] -> exists x, In x Ls.[l] /\ ME x y.
Proof.
  destruct (mo_inv _ _ _ _ _ _ _ HM) as [V1 V2 V3 V4]. intros Hl Hy.
  assert (Hlt : y < K * n) by (apply (mo_lt _ _ _ _ _ _ _ HM); apply in_concat_aget; eauto).
  destruct (copy_form n K y Hlt) as (v & q & Hv & Hq & ->). destruct q as [|q].
  - rewrite Nat.mul_0_r, Nat.add_0_r in *. destruct (V3 l v Hl Hv Hy) as (u & Hu & Ht). exists u. split; [auto|]. left. exists 0, u, v.
    pose proof (tl_lt n K Lp Li HW HK _ _ Ht). rewrite Nat.mul_0_r, !Nat.add_0_r. tauto.
  - apply V1 in Hy; auto. destruct Hy as (l' & E & Hy). injection E as <-. exists (v + n * q). split; [auto|]. right. exists q, v. auto.
Qed.

Lemma lv_unique x l l' : l < length Ls -> l' < length Ls -> In x Ls.[l] -> In x Ls.[l'] -> l = l'.
Proof.
  intros Hl Hl' A B. pose proof (mo_nodup _ _ _ _ _ _ _ HM) as HN. clear -HN Hl Hl' A B.
  revert l l' Hl Hl' A B. induction Ls as [|a L IH]; intros l l' Hl Hl' A B; [simpl in Hl; lia|].
  simpl in Hl, Hl', HN. 
  assert (G : forall m, m < length L -> In x L.[m] -> ~ In x a).
  { intros m Hm C D. assert (E : In x (concat L)) by (apply in_concat_aget; eauto).
    clear -HN D E. induction a as [|b a IHa]; [destruct D|]. cbn [app] in HN. inversion HN as [|? ? N1 N2]; subst.
    destruct D as [->|D]; [apply N1; apply in_app_iff; auto|auto]. }
  assert (HN' : NoDup (concat L)) by (clear -HN; induction a; [auto|]; inversion HN; auto).
  destruct l as [|l], l' as [|l']; auto.
  - rewrite aget_cons_0 in A. rewrite aget_cons_S in B. exfalso. apply (G l'); auto. lia.
  - rewrite aget_cons_0 in B. rewrite aget_cons_S in A. exfalso. apply (G l); auto. lia.
  - rewrite aget_cons_S in A, B. f_equal. apply IH; auto; lia.
Qed.

Lemma lv_depth l x : l < length Ls -> In x Ls.[l] -> depth_is ME x l.
Proof.
  intros Hl Hx. split.
  - revert x Hx. induction l as [|l IH]; intros x Hx; [exists x; constructor|].
    destruct (lv_pred l x Hl Hx) as (y & Hy & E). destruct (IH ltac:(lia) y Hy) as (u & Hu). exists u. econstructor; eauto.
  - intros u k Hc. revert l Hl Hx. induction Hc as [u|u v w k Hc IH E]; intros l Hl Hx; [lia|].
    destruct (lv_edge l v w Hl Hx E) as (l' & Hl' & Hv). specialize (IH l' ltac:(lia) Hv). lia.
Qed.

(** a node that is not placed has a predecessor that is not placed *)
Lemma unplaced_pred y : y < K * n -> ~ In y (concat Ls) -> exists x, x < K * n /\ ~ In x (concat Ls) /\ ME x y.
Proof.
  intros Hy Hnot. destruct (copy_form n K y Hy) as (v & q & Hv & Hq & ->). destruct q as [|q].
  - rewrite Nat.mul_0_r, Nat.add_0_r in *.
    destruct (R n Lp Li (concat Ls) 0 v) eqn:ER.
    { exfalso. apply Hnot. apply (mo_zero _ _ _ _ _ _ _ HM); auto. intros u Hu. apply (R_zero n K Lp Li HW HK) with (u := u) in ER; auto.
      now rewrite Nat.mul_0_r, Nat.add_0_r in ER. }
    assert (HR : 0 < R n Lp Li (concat Ls) 0 v) by (rewrite ER; lia). unfold R in HR. apply sum_r_pos in HR.
    destruct HR as (u & Hu & HR). cbn beta in HR. rewrite Nat.mul_0_r, Nat.add_0_r in HR.
    destruct (mem u (concat Ls)) eqn:M; [lia|]. apply mem_false in M. exists u. split; [nia|]. split; [auto|].
    left. exists 0, u, v. rewrite Nat.mul_0_r, !Nat.add_0_r. split; [auto|]. split; [lia|]. split; [auto|]. split; [|auto]. apply (tm_pos n K Lp Li HK); [lia|auto].
  - exists (v + n * q). split; [apply copy_lt; lia|]. split.
    + intros H. apply Hnot. apply (mo_copy _ _ _ _ _ _ _ HM); auto.
    + right. exists q, v. auto.
Qed.

Lemma unplaced_chain k : forall y, y < K * n -> ~ In y (concat Ls) -> exists x, x < K * n /\ chain ME x y k.
Proof.
  induction k as [|k IH]; intros y Hy Hn; [exists y; split; [auto|constructor]|].
  destruct (unplaced_pred y Hy Hn) as (x & Hx & Hxn & E). destruct (IH x Hx Hxn) as (w & Hw & Hc). exists w. split; [auto|]. econstructor; eauto.
Qed.

Lemma placed_iff l x : l < length Ls /\ In x Ls.[l] <-> x < K * n /\ depth_is ME x l.
Proof.
  split.
  - intros [Hl Hx]. split; [|now apply lv_depth]. apply (mo_lt _ _ _ _ _ _ _ HM). apply in_concat_aget. eauto.
  - intros [Hx Hd]. destruct (mem x (concat Ls)) eqn:M.
    + apply mem_In, in_concat_aget in M. destruct M as (l' & Hl' & Hin).
      destruct (lv_depth l' x Hl' Hin) as [(u' & A') B']. destruct Hd as [(u & A) B]. 
      assert (l = l') by (apply Nat.le_antisymm; eauto). subst. auto.
    + apply mem_false in M. exfalso. destruct (unplaced_chain (S l) x Hx M) as (w & _ & Hc). destruct Hd as [_ B]. apply B in Hc. lia.
Qed.

Lemma rep_level l x : l < length Ls -> (in_level lp ls l x <-> In x Ls.[l]).
Proof.
  intros Hl. destruct (mo_rep _ _ _ _ _ _ _ HM) as [R1 R2].
  assert (E : concat (firstn (S l) Ls) = concat (firstn l Ls) ++ Ls.[l]).
  { rewrite <- concat_snoc. f_equal. clear -Hl. revert l Hl. induction Ls as [|a L IH]; intros l Hl; [simpl in Hl; lia|]. destruct l; [auto|].
    simpl in Hl. rewrite aget_cons_S. cbn [firstn app]. f_equal. apply IH. lia. }
  assert (E2 : concat Ls = concat (firstn (S l) Ls) ++ concat (skipn (S l) Ls)) by now rewrite <- concat_app, firstn_skipn.
  assert (H1 : lp.[l] = length (concat (firstn l Ls))) by (apply R1; lia).
  assert (H2 : lp.[S l] = length (concat (firstn l Ls)) + length Ls.[l]) by (rewrite R1 by lia; now rewrite E, app_length).
  assert (G : forall j, j < length Ls.[l] -> ls.[lp.[l] + j] = Ls.[l].[j]).
  { intros j Hj. rewrite R2 by (rewrite E2, E, !app_length; lia). rewrite E2, E. rewrite aget_app1 by (rewrite app_length; lia).
    rewrite aget_app2 by lia. f_equal. lia. }
  split.
  - intros (k & Hk & <-). replace k with (lp.[l] + (k - lp.[l])) by lia. rewrite G by lia. apply aget_In. lia.
  - intros Hx. apply In_aget in Hx. destruct Hx as (j & Hj & <-). exists (lp.[l] + j). split; [lia|auto].
Qed.
End D.
