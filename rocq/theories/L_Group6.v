(** Proofs about the BFS version of the tree grouping, and the two tree groupings as a
    whole. *)
From Coq Require Import List Arith Lia Bool Permutation ZifyBool ZifyNat.
From Verif Require Import Base Lib Lib2 Lib3 Spec SpecSolve M_Sched L_Sched M_Mat M_Group L_Group L_Group2 L_Group3 L_Group4 L_Group5.
Import ListNotations.

Section BFS.
Variables (n : nat) (Lp Li ip is : list nat) (restr : nat).
Hypothesis W : wf_csc n Lp Li.
Hypothesis HD : one_diag n Lp Li.
Hypothesis HT : lower_tri n Lp Li.
Hypothesis PR : pred_rows n Lp Li ip is.
Hypothesis HR : 0 < restr.
Notation E := (edge n Lp Li).
Notation walk_inv := (walk_inv n Lp Li).
Notation seg := (seg n Lp Li restr True).

Definition bfs_inv (r : nat) (last : nat) (st : tg * list nat) : Prop :=
  let '(s, q) := st in
  exists rt, let D := firstn (t_cnt s) (t_set s) in
    length (t_set s) = n /\ length D = t_cnt s /\
    walk_inv (t_vis s) (t_roots s) (D ++ q) (t_cnt s) rt /\
    seg (t_ptr s) (D ++ q) (t_cnt s) rt /\
    t_ng s = length (t_ptr s) /\ last = (t_ptr s).[length (t_ptr s) - 1] /\ t_cnt s - last <= restr /\
    (0 < length q -> t_cnt s - last < restr) /\
    (forall x, In x q -> rt x = r) /\ (forall i, last <= i < t_cnt s -> rt D.[i] = r).

Lemma bfs_walk_wp fuel r s q last (Q : tg -> Prop) :
  bfs_inv r last (s, q) -> n < fuel ->
  (forall s', bfs_inv r last (s', []) -> (0 < length q -> t_cnt s < t_cnt s') -> Q s') ->
  wp (bfs_walk fuel restr Lp ip is s q last) Q.
Proof.
  intros HI Hf HQ. unfold bfs_walk. wp1.
  apply (wp_while (fun st : tg * list nat => let '(s', q') := st in bfs_inv r last st /\ t_cnt s <= t_cnt s' /\
      (0 < length q -> t_cnt s < t_cnt s' \/ 0 < length q'))
    (fun st => let '(s, _) := st in n - t_cnt s)); [split; [auto|split; [lia|auto]]|lia|].
  intros (s1 & q1) (HI1 & Hge & Hpr). cbn [wp].
  destruct (Nat.eqb_spec (length q1) 0) as [E0|E0]; cbn [negb].
  - assert (q1 = []) by (destruct q1; auto; simpl in E0; lia). subst q1.
    cbn [wp]. apply HQ; auto.
    intros H. destruct (Hpr H) as [|H']; auto. simpl in H'. lia.
  - destruct HI1 as (rt & Ls & LD & WI & SG & Hng & El & Hsz0 & Hsz & Hq & Hc). cbv zeta in *. specialize (Hsz ltac:(lia)).
    set (D := firstn (t_cnt s1) (t_set s1)) in *.
    assert (Eq : q1 = q1.[0] :: tl q1) by (apply cons_hd_tl; lia).
    set (h := q1.[0]) in *. set (t := tl q1) in *.
    assert (Hlen : length (D ++ q1) <= n) by (eapply walk_inv_bound; eauto).
    rewrite app_length in Hlen.
    assert (Hh : h < n).
    { destruct WI as (_ & _ & HB & _). apply HB. rewrite !in_app_iff. left. right. rewrite Eq. left. auto. }
    wp1. wp1; [lia|]. fold h.
    wp1. wp1; [lia|]. cbv zeta. wp1. apply (visit_preds_wp n Lp Li ip is); auto; [apply WI|].
    intros vis' newr newq fin V1 V2 V3 V4 V5 V6.
    rewrite Eq in WI, SG, Hq. rewrite <- LD in WI at 1. rewrite <- LD in SG at 1. rewrite El, <- LD in Hc.
    destruct (walk_seg_step n Lp Li restr W HR True (t_vis s1) (t_roots s1) (t_ptr s1) D h t rt r vis' newr newq)
      as (rt' & WI' & SG' & HqN & HcN); auto.
    rewrite LD, <- El in *.
    assert (ED : firstn (S (t_cnt s1)) (upd (t_set s1) (t_cnt s1) h) = D ++ [h]) by (apply firstn_upd_snoc; lia).
    assert (LDh : length (D ++ [h]) = S (t_cnt s1)) by (rewrite app_length; simpl; lia).
    pose proof SG as (S1 & S2 & S3 & S4 & S5 & S6 & S7).
    destruct (fin || (S (t_cnt s1) - last =? restr)) eqn:Efin; wp1; cbn [t_cnt].
    + splits; [| lia | left; lia | lia].
      exists rt'. cbv zeta. cbn [t_vis t_roots t_set t_cnt t_ptr t_ng]. rewrite ED, upd_length.
      splits; auto.
      * rewrite app_nil_r. rewrite <- LDh in WI' |- *. now apply walk_inv_requeue.
      * destruct SG' as (A1 & A2 & A3 & A4 & A5 & A6 & A7). unfold L_Group5.seg. rewrite app_nil_r. splits; auto.
        -- intros i Hi Hb. specialize (A6 i Hi Hb). rewrite !(aget_app1 (D ++ [h])) in A6 by lia. auto.
        -- intros Hw i j Hi Hj Hr He b Hb. apply (A7 Hw i j); auto.
           ++ rewrite app_length. lia.
           ++ rewrite (aget_app1 (D ++ [h])) by lia. auto.
           ++ rewrite !(aget_app1 (D ++ [h])) by lia. auto.
      * lia.
      * simpl. lia.
      * intros x [].
    + splits; [| lia | left; lia | lia].
      exists rt'. cbv zeta. cbn [t_vis t_roots t_set t_cnt t_ptr t_ng]. rewrite ED, upd_length.
      splits; auto; lia.
Qed.

Definition bfs_outer (s : tg) : Prop :=
  exists rt, let D := firstn (t_cnt s) (t_set s) in
    length (t_set s) = n /\ length D = t_cnt s /\
    walk_inv (t_vis s) (t_roots s) D (t_cnt s) rt /\ t_ng s = length (t_ptr s) /\
    ((t_cnt s = 0 /\ t_ptr s = []) \/
     (seg (t_ptr s) D (t_cnt s) rt /\ (t_ptr s).[length (t_ptr s) - 1] < t_cnt s /\
      t_cnt s - (t_ptr s).[length (t_ptr s) - 1] <= restr)).

Lemma bfs_walks_wp roots (Q : tg -> Prop) : 0 < n -> NoDup roots -> (forall x, In x roots <-> x < n /\ forall w, ~ E x w) ->
  (forall s, forest_cut n Lp Li restr (t_ng s) (t_ptr s) (t_set s) True -> Q s) ->
  wp (bfs_walks n restr Lp ip is roots) Q.
Proof.
  intros Hn HN HI HQ. unfold bfs_walks. wp1.
  apply (wp_while bfs_outer (fun s => n - t_cnt s)).
  - exists (fun x => x). cbv zeta. cbn [t_vis t_roots t_set t_cnt t_ptr t_ng]. rewrite repeat_length. simpl firstn.
    splits; auto. now apply walk_inv_init.
  - cbn [t_cnt]. lia.
  - intros s (rt & Ls & LD & WI & Hng & HS). cbv zeta in *. cbn [wp].
    set (D := firstn (t_cnt s) (t_set s)) in *.
    destruct (Nat.eqb_spec (length (t_roots s)) 0) as [E0|E0]; cbn [negb].
    + assert (Er : t_roots s = []) by (destruct (t_roots s); auto; simpl in E0; lia). rewrite Er in WI.
      rewrite <- LD in WI at 1. pose proof (walk_inv_end n Lp Li W HD HT _ _ _ WI) as HP. rewrite LD in WI.
      assert (Ec : t_cnt s = n) by (rewrite <- LD; apply HP).
      assert (ED : D = t_set s) by (unfold D; rewrite Ec, <- Ls; apply firstn_all).
      rewrite ED, Ec in *. destruct HS as [(HS & _)|(SG & HS1 & HS2)]; [lia|].
      pose proof SG as (S1 & _ & _ & S4 & _).
      wp1. apply wp_back; [lia|]. wp1.
      destruct (Nat.eqb_spec (t_ptr s).[length (t_ptr s) - 1] n) as [Eb|Eb]; [lia|].
      apply HQ; cbn [t_ptr t_set t_ng].
      replace (t_ng s) with (length (t_ptr s ++ [n]) - 1) by (rewrite app_length; simpl; lia).
      apply forest_cut_of with (vis := t_vis s) (rt := rt); auto.
      * apply seg_push; auto; try lia.
      * rewrite app_length. simpl. replace (length (t_ptr s) + 1 - 1) with (length (t_ptr s)) by lia. apply aget_app_last.
    + assert (Eq : t_roots s = (t_roots s).[0] :: tl (t_roots s)) by (apply cons_hd_tl; lia).
      wp1. wp1; [lia|]. set (x := (t_roots s).[0]) in *. set (roots' := tl (t_roots s)) in *.
      rewrite <- LD in WI at 1.
      destruct (walk_inv_root n Lp Li (t_vis s) (t_roots s) roots' D rt x WI) as (rt' & WI' & R1 & R2).
      { rewrite Eq. apply Permutation_refl. }
      assert (Hx : x < n).
      { destruct WI' as (_ & _ & HB & _). apply HB. rewrite !in_app_iff. simpl. auto. }
      assert (HLv : length (t_vis s) = n) by apply WI.
      wp1. wp1; [lia|].
      pose proof (walk_inv_bound n Lp Li _ _ _ _ _ WI') as HLn. rewrite app_length in HLn. simpl in HLn.
      assert (SG' : seg (t_ptr s ++ [t_cnt s]) (D ++ [x]) (t_cnt s) rt').
      { assert (SG1 : seg (t_ptr s ++ [t_cnt s]) D (t_cnt s) rt).
        { destruct HS as [(HS1 & HS2)|(SG & HS1 & HS2)].
          - rewrite HS1, HS2. unfold L_Group5.seg. simpl. splits; auto; try lia; intros; try lia.
          - apply seg_push; auto; lia. }
        destruct SG1 as (A1 & A2 & A3 & A4 & A5 & A6 & A7). unfold L_Group5.seg. splits; auto.
        - intros i Hi Hb. rewrite !aget_app1 by lia. rewrite !R1 by (apply aget_In; lia). auto.
        - intros Hw i j Hi Hj Hr He b Hb. rewrite app_length in Hi. simpl in Hi.
          destruct (Nat.eq_dec i (length D)) as [->|].
          + rewrite aget_app_last in Hr. congruence.
          + rewrite (aget_app1 D [x] i) in Hr, He by lia. rewrite (aget_app1 D [x] j) in He by lia. rewrite R1 in Hr by (apply aget_In; lia). apply (A7 Hw i j); auto; lia. }
      apply bfs_walk_wp with (r := x); auto.
      * exists rt'. cbv zeta. cbn [t_vis t_roots t_set t_cnt t_ptr t_ng]. fold D. rewrite app_length. simpl length.
        replace (length (t_ptr s) + 1 - 1) with (length (t_ptr s)) by lia. rewrite aget_app_last.
        splits; auto; try lia.
        -- rewrite <- LD at 1. auto.
        -- intros y [<-|[]]. auto.
      * cbn [t_cnt]. intros s' (rt2 & X1 & X2 & X3 & X4 & X5 & X6 & X7 & _) Hlt. cbv zeta in *.
        rewrite app_nil_r in *. specialize (Hlt ltac:(simpl; lia)). split; [|lia].
        exists rt2. cbv zeta. splits; auto. right. splits; auto; try lia.
Qed.

End BFS.
