(** The loops of the tree groupings. *)
From Coq Require Import ZifyBool ZifyNat.
From Verif Require Import Base Lib Lib2 Lib3 Spec SpecSolve M_Group L_Group2 L_Group3 L_Group4.

Lemma firstn_upd_snoc {A} (l : list A) k x : k < length l -> firstn (S k) (upd l k x) = firstn k l ++ [x].
Proof.
  revert k. induction l as [|y t IH]; intros [|k] Hk; simpl in *; try lia; auto.
  rewrite <- IH by lia. reflexivity.
Qed.

Lemma removelast_perm (l : list nat) : 0 < length l -> Permutation l (l.[length l - 1] :: removelast l).
Proof.
  intros Hl. assert (Hne : l <> []) by (intros ->; simpl in Hl; lia).
  rewrite (app_removelast_last 0 Hne) at 1.
  replace (last l 0) with l.[length l - 1].
  - apply Permutation_sym, Permutation_cons_append.
  - rewrite (app_removelast_last 0 Hne) at 1.
    replace (length l - 1) with (length (removelast l)) by (rewrite removelast_length; lia).
    apply aget_app_last.
Qed.

Lemma cons_hd_tl (l : list nat) : 0 < length l -> l = l.[0] :: tl l.
Proof. destruct l; simpl; [lia|auto]. Qed.

Section Loops.
Variables (n : nat) (Lp Li ip is : list nat) (restr : nat).
Hypothesis W : wf_csc n Lp Li.
Hypothesis HD : one_diag n Lp Li.
Hypothesis HT : lower_tri n Lp Li.
Hypothesis PR : pred_rows n Lp Li ip is.
Hypothesis HR : 0 < restr.
Notation E := (edge n Lp Li).
Notation walk_inv := (walk_inv n Lp Li).

(** the pointers cut the placed nodes into pieces of trees; [whole]: the pieces are
    whole trees *)
Definition seg (whole : Prop) (ptr L : list nat) (d : nat) (rt : nat -> nat) : Prop :=
  0 < length ptr /\ ptr.[0] = 0 /\ (forall q, S q < length ptr -> ptr.[q] < ptr.[S q]) /\
  ptr.[length ptr - 1] <= d /\
  (forall q, S q < length ptr -> ptr.[S q] - ptr.[q] <= restr) /\
  (forall i, S i < d -> ~ In (S i) ptr -> rt L.[i] = rt L.[S i]) /\
  (whole -> forall i j, i < length L -> j < i -> rt L.[i] <> L.[i] -> E L.[i] L.[j] -> forall b, In b ptr -> b <= j \/ i < b).

Lemma seg_le whole ptr L d rt : seg whole ptr L d rt -> forall b, In b ptr -> b <= ptr.[length ptr - 1].
Proof.
  intros (S1 & S2 & S3 & S4 & _) b Hb. apply In_aget in Hb. destruct Hb as (q & Hq & <-).
  apply (mono_le (aget ptr) (length ptr - 1)); try lia. intros i Hi. specialize (S3 i ltac:(lia)). lia.
Qed.

Lemma seg_push (whole : Prop) ptr L d rt : seg whole ptr L d rt -> ptr.[length ptr - 1] < d -> d - ptr.[length ptr - 1] <= restr ->
  (whole -> length L <= d) -> seg whole (ptr ++ [d]) L d rt.
Proof.
  intros (S1 & S2 & S3 & S4 & S5 & S6 & S7) Hlt Hsz Hw. unfold seg. rewrite app_length. simpl length. splits.
  - lia.
  - now rewrite aget_app1 by lia.
  - intros q Hq. rewrite aget_app1 by lia. destruct (Nat.eq_dec (S q) (length ptr)) as [Eq|].
    + rewrite Eq, aget_app_last. replace q with (length ptr - 1) by lia. lia.
    + rewrite aget_app1 by lia. apply S3. lia.
  - replace (length ptr + 1 - 1) with (length ptr) by lia. rewrite aget_app_last. lia.
  - intros q Hq. rewrite (aget_app1 ptr [d] q) by lia. destruct (Nat.eq_dec (S q) (length ptr)) as [Eq|].
    + rewrite Eq, aget_app_last. replace q with (length ptr - 1) by lia. lia.
    + rewrite aget_app1 by lia. apply S5. lia.
  - intros i Hi Hb. apply S6; auto. intros H. apply Hb. rewrite in_app_iff. auto.
  - intros Hwh i j Hi Hj Hr He b Hb. apply in_app_iff in Hb. destruct Hb as [Hb|[<-|[]]].
    + now apply S7.
    + right. specialize (Hw Hwh). lia.
Qed.

(** ** One node *)

Lemma walk_seg_step (whole : Prop) vis roots ptr D h t rt r vis' newr newq :
  walk_inv vis roots (D ++ h :: t) (length D) rt -> seg whole ptr (D ++ h :: t) (length D) rt ->
  (forall x, In x (h :: t) -> rt x = r) -> (forall i, ptr.[length ptr - 1] <= i < length D -> rt D.[i] = r) ->
  length vis' = n ->
  (forall x, x < n -> (vis'.[x] = true <-> vis.[x] = true \/ In x (newr ++ newq))) ->
  NoDup (newr ++ newq) -> (forall x, In x (newr ++ newq) -> E x h /\ vis.[x] = false) ->
  (forall u, E u h -> vis'.[u] = true) ->
  (forall x, In x newq -> forall w, E x w -> w = h) ->
  exists rt', walk_inv vis' (roots ++ newr) ((D ++ [h]) ++ t ++ newq) (S (length D)) rt' /\
    seg whole ptr ((D ++ [h]) ++ t ++ newq) (S (length D)) rt' /\
    (forall x, In x (t ++ newq) -> rt' x = r) /\
    (forall i, ptr.[length ptr - 1] <= i < S (length D) -> rt' (D ++ [h]).[i] = r).
Proof.
  intros WI SG Hq Hc V1 V2 V3 V4 V5 V6.
  assert (EL : (D ++ h :: t).[length D] = h).
  { rewrite aget_app2 by lia. now rewrite Nat.sub_diag. }
  destruct (walk_inv_step n Lp Li W vis roots (D ++ h :: t) (length D) rt vis' newr newq) as (rt' & WI' & R1 & R2); auto.
  { rewrite app_length. simpl. lia. } { now rewrite EL. } { now rewrite EL. } { now rewrite EL. }
  rewrite EL in R2.
  assert (EDL : (D ++ h :: t) ++ newq = (D ++ [h]) ++ t ++ newq) by (rewrite <- !app_assoc; reflexivity).
  rewrite EDL in WI'.
  assert (HrD : forall x, In x D -> rt' x = rt x) by (intros x Hx; apply R1; rewrite in_app_iff; auto).
  assert (Hrq : forall x, In x (h :: t) -> rt' x = r).
  { intros x Hx. rewrite R1 by (rewrite in_app_iff; auto). auto. }
  assert (Hrh : rt' h = r) by (apply Hrq; left; auto).
  assert (Hrh0 : rt h = r) by (apply Hq; left; auto).
  pose proof SG as (S1 & S2 & S3 & S4 & S5 & S6 & S7).
  assert (HlD : forall i, i < length D -> ((D ++ [h]) ++ t ++ newq).[i] = D.[i]).
  { intros i Hi. rewrite aget_app1 by (rewrite app_length; simpl; lia). now rewrite aget_app1 by lia. }
  assert (Hlh : ((D ++ [h]) ++ t ++ newq).[length D] = h).
  { rewrite aget_app1 by (rewrite app_length; simpl; lia). apply aget_app_last. }
  exists rt'. splits; auto.
  - unfold seg. splits; auto; try lia.
    + intros i Hi Hb. destruct (Nat.eq_dec (S i) (length D)) as [Ei|].
      * rewrite Ei, Hlh, HlD by lia. rewrite HrD by (apply aget_In; lia). rewrite Hc, Hrh; [auto|].
        split; [|lia]. destruct (Nat.eq_dec ptr.[length ptr - 1] (S i)) as [Eb|]; [|lia].
        elim Hb. rewrite <- Eb. apply aget_In. lia.
      * rewrite !HlD by lia. rewrite !HrD by (apply aget_In; lia).
        specialize (S6 i ltac:(lia) Hb). now rewrite !aget_app1 in S6 by lia.
    + intros Hw i j Hi Hj Hr He b Hb. rewrite <- EDL in Hr, He, Hi. rewrite app_length in Hi.
      destruct (Nat.lt_ge_cases i (length (D ++ h :: t))) as [Hi'|Hi'].
      * rewrite (aget_app1 (D ++ h :: t) newq i) in Hr, He by lia. rewrite (aget_app1 (D ++ h :: t) newq j) in He by lia.
        apply (S7 Hw i j); auto. rewrite R1 in Hr by (apply aget_In; auto). auto.
      * left. pose proof (seg_le _ _ _ _ _ SG b Hb) as Hle.
        rewrite (aget_app2 (D ++ h :: t) newq i) in He by lia.
        assert (Hin : In newq.[i - length (D ++ h :: t)] newq) by (apply aget_In; lia).
        apply V6 in He; auto.
        assert (HNL : NoDup ((D ++ h :: t) ++ newq)).
        { rewrite EDL. destruct WI' as (_ & HN & _). apply NoDup_app_iff in HN. apply HN. }
        assert (j = length D); [|lia].
        apply (NoDup_aget ((D ++ h :: t) ++ newq)); auto; try (rewrite !app_length in *; simpl in *; lia).
        rewrite He. rewrite aget_app1 by (rewrite app_length; simpl; lia). auto.
  - intros x Hx. apply in_app_iff in Hx. destruct Hx as [Hx|Hx].
    + apply Hrq. now right.
    + rewrite R2 by auto. auto.
  - intros i Hi. destruct (Nat.eq_dec i (length D)) as [->|]; [now rewrite aget_app_last|].
    rewrite aget_app1 by lia. rewrite HrD by (apply aget_In; lia). apply Hc. lia.
Qed.

(** ** One tree *)

Definition tree_inv (r : nat) (st : tg * list nat * nat) : Prop :=
  let '(s, q, last) := st in
  exists rt, let D := firstn (t_cnt s) (t_set s) in
    length (t_set s) = n /\ length D = t_cnt s /\
    walk_inv (t_vis s) (t_roots s) (D ++ q) (t_cnt s) rt /\
    seg (n <= restr) (t_ptr s) (D ++ q) (t_cnt s) rt /\
    t_ng s = length (t_ptr s) /\ last = (t_ptr s).[length (t_ptr s) - 1] /\ t_cnt s - last < restr /\
    (forall x, In x q -> rt x = r) /\ (forall i, last <= i < t_cnt s -> rt D.[i] = r).

Lemma tree_walk_wp fuel r s q last (Q : tg -> Prop) :
  tree_inv r (s, q, last) -> n < fuel ->
  (forall s', tree_inv r (s', [], (t_ptr s').[length (t_ptr s') - 1]) -> (0 < length q -> t_cnt s < t_cnt s') -> Q s') ->
  wp (tree_walk fuel restr Lp ip is s q last) Q.
Proof.
  intros HI Hf HQ. unfold tree_walk. wp1.
  apply (wp_while (fun st : tg * list nat * nat => let '(s', q', _) := st in tree_inv r st /\ t_cnt s <= t_cnt s' /\
      (0 < length q -> t_cnt s < t_cnt s' \/ 0 < length q'))
    (fun st => let '(s, _, _) := st in n - t_cnt s)); [split; [auto|split; [lia|auto]]|lia|].
  intros ((s1 & q1) & l1) (HI1 & Hge & Hpr). cbn [wp].
  destruct (Nat.eqb_spec (length q1) 0) as [E0|E0]; cbn [negb].
  - assert (q1 = []) by (destruct q1; auto; simpl in E0; lia). subst q1.
    cbn [wp]. apply HQ; auto.
    + pose proof HI1 as (rt & _ & _ & _ & _ & _ & El & _). cbv zeta in El. rewrite <- El. auto.
    + intros H. destruct (Hpr H) as [|H']; auto. simpl in H'. lia.
  - destruct HI1 as (rt & Ls & LD & WI & SG & Hng & El & Hsz & Hq & Hc). cbv zeta in *.
    set (D := firstn (t_cnt s1) (t_set s1)) in *.
    assert (Eq : q1 = q1.[0] :: tl q1) by (apply cons_hd_tl; lia).
    set (h := q1.[0]) in *. set (t := tl q1) in *.
    assert (Hlen : length (D ++ q1) <= n) by (eapply walk_inv_bound; eauto).
    rewrite app_length in Hlen.
    assert (EL : (D ++ q1).[t_cnt s1] = h).
    { rewrite aget_app2 by lia. now replace (t_cnt s1 - length D) with 0 by lia. }
    assert (Hh : h < n).
    { destruct WI as (_ & _ & HB & _). apply HB. rewrite !in_app_iff. left. right. rewrite Eq. left. auto. }
    wp1. wp1; [lia|]. fold h. wp1. apply (visit_preds_wp n Lp Li ip is); auto; [apply WI|].
    intros vis' newr newq fin V1 V2 V3 V4 V5 V6. wp1. wp1; [lia|].
    rewrite Eq in WI, SG, Hq. rewrite <- LD in WI at 1. rewrite <- LD in SG at 1. rewrite El, <- LD in Hc.
    destruct (walk_seg_step (n <= restr) (t_vis s1) (t_roots s1) (t_ptr s1) D h t rt r vis' newr newq) as (rt' & WI' & SG' & HqN & HcN); auto.
    rewrite LD, <- El in *.
    assert (ED : firstn (S (t_cnt s1)) (upd (t_set s1) (t_cnt s1) h) = D ++ [h]) by (apply firstn_upd_snoc; lia).
    assert (HLn : length ((D ++ [h]) ++ t ++ newq) <= n) by (eapply walk_inv_bound; eauto).
    pose proof SG as (S1 & S2 & S3 & S4 & S5 & S6 & S7).
    destruct (Nat.eqb_spec (S (t_cnt s1) - l1) restr) as [Er|Er]; wp1; cbn [t_cnt].
    + splits; [| lia | left; lia | lia].
      exists rt'. cbv zeta. cbn [t_vis t_roots t_set t_cnt t_ptr t_ng]. rewrite ED, upd_length.
      splits; auto.
      * rewrite app_length. simpl. lia.
      * apply seg_push; auto; try lia.
      * rewrite app_length. simpl. lia.
      * rewrite app_length. simpl. replace (length (t_ptr s1) + 1 - 1) with (length (t_ptr s1)) by lia. now rewrite aget_app_last.
      * lia.
      * intros i Hi. lia.
    + splits; [| lia | left; lia | lia].
      exists rt'. cbv zeta. cbn [t_vis t_roots t_set t_cnt t_ptr t_ng]. rewrite ED, upd_length.
      splits; auto.
      * rewrite app_length. simpl. lia.
      * lia.
Qed.

(** ** All trees *)

(** what the grouping loops leave behind *)
Definition forest_cut (ng : nat) (ptr set : list nat) (whole : Prop) : Prop :=
  raw_groups n ng ptr set /\ (forall q, q < ng -> ptr.[S q] - ptr.[q] <= restr) /\
  exists rt, (forall x, x < n -> reaches E x (rt x)) /\
    (forall q i j, q < ng -> ptr.[q] <= i < ptr.[S q] -> ptr.[q] <= j < ptr.[S q] -> rt set.[i] = rt set.[j]) /\
    (forall i v, i < n -> rt set.[i] <> set.[i] -> E set.[i] v -> (forall w, E set.[i] w -> w = v) /\
       exists j, j < i /\ v = set.[j] /\ rt set.[j] = rt set.[i] /\
       (whole -> forall q, q <= ng -> ptr.[q] <= j \/ i < ptr.[q])).

Lemma forest_cut_of whole vis ptr set rt : length set = n -> walk_inv vis [] set n rt -> seg whole ptr set n rt ->
  ptr.[length ptr - 1] = n -> forest_cut (length ptr - 1) ptr set whole.
Proof.
  intros HL WI0 SG Hb. assert (WI : walk_inv vis [] set (length set) rt) by now rewrite HL.
  pose proof (walk_inv_end n Lp Li W HD HT vis set rt WI) as HP.
  pose proof SG as (S1 & S2 & S3 & S4 & S5 & S6 & S7). unfold forest_cut.
  assert (HM : forall a b, a <= b -> b <= length ptr - 1 -> ptr.[a] <= ptr.[b]).
  { apply (mono_le (aget ptr)). intros i Hi. specialize (S3 i ltac:(lia)). lia. }
  splits.
  - unfold raw_groups. splits; auto; try lia. intros g Hg. apply S3. lia.
  - intros q Hq. apply S5. lia.
  - exists rt. splits.
    + intros x Hx. destruct (is_perm_pos n set x HP Hx) as (i & Hi & <-).
      apply (walk_inv_reach n Lp Li vis [] set (length set) rt WI). lia.
    + intros q. assert (G : forall i j, q < length ptr - 1 -> ptr.[q] <= i -> i <= j -> j < ptr.[S q] -> rt set.[i] = rt set.[j]).
      { intros i j Hq Hi Hij. induction Hij as [|j Hij IH]; intros Hj; auto.
        rewrite IH by lia. pose proof (HM (S q) (length ptr - 1) ltac:(lia) ltac:(lia)). apply S6; [lia|].
        intros Hin. apply In_aget in Hin. destruct Hin as (a & Ha & Ea).
        destruct (le_lt_dec a q) as [L|L].
        - pose proof (HM a q L ltac:(lia)). lia.
        - pose proof (HM (S q) a ltac:(lia) ltac:(lia)). lia. }
      intros i j Hq Hi Hj. destruct (le_lt_dec i j); [|symmetry]; apply G; auto; lia.
    + intros i v Hi Hr He. destruct WI as (_ & _ & _ & _ & _ & _ & _ & _ & I8).
      destruct (I8 i ltac:(lia)) as [H|(j & Hj & _ & H1 & H2 & H3)]; [contradiction|].
      split; [intros w Hw'; rewrite (H2 w Hw'), (H2 v He); auto|].
      exists j. splits; auto. intros Hw q Hq. apply (S7 Hw i j); auto; try lia. apply aget_In. lia.
Qed.

Definition trees_inv (whole : Prop) (s : tg) : Prop :=
  exists rt, let D := firstn (t_cnt s) (t_set s) in
    length (t_set s) = n /\ length D = t_cnt s /\
    walk_inv (t_vis s) (t_roots s) D (t_cnt s) rt /\ seg whole (t_ptr s) D (t_cnt s) rt /\
    t_ng s = length (t_ptr s) /\ t_cnt s - (t_ptr s).[length (t_ptr s) - 1] < restr.

Lemma tree_walks_wp roots (Q : tg -> Prop) : NoDup roots -> (forall x, In x roots <-> x < n /\ forall w, ~ E x w) ->
  (forall s, forest_cut (length (t_ptr s) - 1) (t_ptr s) (t_set s) (n <= restr) ->
     t_ng s = length (t_ptr s) \/ t_ng s = length (t_ptr s) - 1 -> 0 < length (t_ptr s) -> Q s) ->
  wp (tree_walks n restr Lp ip is roots) Q.
Proof.
  intros HN HI HQ. unfold tree_walks. wp1.
  apply (wp_while (trees_inv (n <= restr)) (fun s => n - t_cnt s)).
  - exists (fun x => x). cbv zeta. cbn [t_vis t_roots t_set t_cnt t_ptr t_ng]. rewrite repeat_length. simpl firstn.
    splits; auto.
    + now apply walk_inv_init.
    + unfold seg. simpl. splits; auto; try lia; intros; try lia.
  - cbn [t_cnt]. lia.
  - intros s (rt & Ls & LD & WI & SG & Hng & Hsz). cbv zeta in *. cbn [wp].
    set (D := firstn (t_cnt s) (t_set s)) in *. pose proof SG as (S1 & _ & _ & S4 & _).
    destruct (Nat.eqb_spec (length (t_roots s)) 0) as [E0|E0]; cbn [negb].
    + assert (Er : t_roots s = []) by (destruct (t_roots s); auto; simpl in E0; lia). rewrite Er in WI.
      rewrite <- LD in WI at 1. pose proof (walk_inv_end n Lp Li W HD HT _ _ _ WI) as HP. rewrite LD in WI.
      assert (Ec : t_cnt s = n) by (rewrite <- LD; apply HP).
      assert (ED : D = t_set s) by (unfold D; rewrite Ec, <- Ls; apply firstn_all).
      rewrite ED, Ec in *. wp1. apply wp_back; [lia|]. wp1.
      destruct (Nat.eqb_spec (t_ptr s).[length (t_ptr s) - 1] n) as [Eb|Eb].
      * apply HQ; auto. now apply forest_cut_of with (vis := t_vis s) (rt := rt).
      * apply HQ; cbn [t_ptr t_set t_ng]; rewrite ?app_length; simpl; try lia.
        replace (length (t_ptr s) + 1 - 1) with (length (t_ptr s ++ [n]) - 1) by (rewrite app_length; simpl; lia).
        apply forest_cut_of with (vis := t_vis s) (rt := rt); auto.
        -- apply seg_push; auto; try lia.
        -- rewrite app_length. simpl. replace (length (t_ptr s) + 1 - 1) with (length (t_ptr s)) by lia. apply aget_app_last.
    + wp1. apply wp_back; [lia|]. wp1. apply wp_pop_back; [lia|].
      pose proof (removelast_perm (t_roots s) ltac:(lia)) as HPm.
      set (x := (t_roots s).[length (t_roots s) - 1]) in *. set (roots' := removelast (t_roots s)) in *.
      rewrite <- LD in WI at 1.
      destruct (walk_inv_root n Lp Li (t_vis s) (t_roots s) roots' D rt x WI HPm) as (rt' & WI' & R1 & R2).
      assert (Hx : x < n).
      { destruct WI' as (_ & _ & HB & _). apply HB. rewrite !in_app_iff. simpl. auto. }
      assert (HLv : length (t_vis s) = n) by apply WI.
      wp1. wp1; [lia|]. wp1. apply wp_back; [lia|].
      pose proof (walk_inv_bound n Lp Li _ _ _ _ _ WI') as HLn. rewrite app_length in HLn. simpl in HLn.
      assert (HNL : NoDup (D ++ [x])).
      { destruct WI' as (_ & HN' & _). apply NoDup_app_iff in HN'. apply HN'. }
      assert (SG' : forall ptr, seg (n <= restr) ptr D (t_cnt s) rt -> seg (n <= restr) ptr (D ++ [x]) (t_cnt s) rt').
      { intros ptr (A1 & A2 & A3 & A4 & A5 & A6 & A7). unfold seg. splits; auto.
        - intros i Hi Hb. rewrite !aget_app1 by lia. rewrite !R1 by (apply aget_In; lia). auto.
        - intros Hw i j Hi Hj Hr He b Hb. rewrite app_length in Hi. simpl in Hi.
          destruct (Nat.eq_dec i (length D)) as [->|].
          + rewrite aget_app_last in Hr. congruence.
          + rewrite (aget_app1 D [x] i) in Hr, He by lia. rewrite (aget_app1 D [x] j) in He by lia. rewrite R1 in Hr by (apply aget_In; lia). apply (A7 Hw i j); auto; lia. }
      set (s1 := if (t_ptr s).[length (t_ptr s) - 1] =? t_cnt s then _ else _).
      assert (HS1 : t_cnt s1 = t_cnt s /\ t_set s1 = t_set s /\ tree_inv x (s1, [x], t_cnt s)).
      { unfold s1. destruct (Nat.eqb_spec (t_ptr s).[length (t_ptr s) - 1] (t_cnt s)) as [Eb|Eb]; cbn [t_cnt t_set]; splits; auto;
          exists rt'; cbv zeta; cbn [t_vis t_roots t_set t_cnt t_ptr t_ng]; fold D; splits; auto; try lia.
        - rewrite <- LD at 1. auto.
        - intros y [<-|[]]. auto.
        - rewrite <- LD at 1. auto.
        - apply SG'. apply seg_push; auto; try lia.
        - rewrite app_length. simpl. lia.
        - rewrite app_length. simpl. replace (length (t_ptr s) + 1 - 1) with (length (t_ptr s)) by lia. now rewrite aget_app_last.
        - intros y [<-|[]]. auto. }
      destruct HS1 as (HS1 & HS2 & HS3).
      apply tree_walk_wp with (r := x); auto. intros s' (rt2 & X1 & X2 & X3 & X4 & X5 & _ & X6 & _) Hlt. cbv zeta in *.
      rewrite app_nil_r in *. specialize (Hlt ltac:(simpl; lia)). split; [|lia].
      exists rt2. cbv zeta. splits; auto.
Qed.

End Loops.
