(** Proofs about the chain grouping. *)
From Coq Require Import List Arith Lia Bool Permutation ZifyBool ZifyNat.
From Verif Require Import Base Lib Lib2 Lib3 Spec SpecSolve SpecGroup M_Sched L_Sched M_Mat M_Group L_Group L_Group2 L_Group3 L_Group4 L_Group5 L_Group7.
Import ListNotations.

Lemma sorted_lt_app l l' : sorted_lt l -> sorted_lt l' -> (forall x y, In x l -> In y l' -> x < y) -> sorted_lt (l ++ l').
Proof.
  induction l as [|a t IH]; simpl; intros H1 H2 H; auto.
  apply sorted_lt_cons in H1. destruct H1 as (H1 & H3). apply sorted_lt_cons. split; auto.
  intros y Hy. apply in_app_iff in Hy. destruct Hy; auto.
Qed.

Lemma sorted_lt_one x : sorted_lt [x].
Proof. apply sorted_lt_cons. split; [intros y []|apply sorted_lt_nil]. Qed.

Lemma sorted_lt_snoc_inv l x : sorted_lt (l ++ [x]) -> sorted_lt l /\ forall y, In y l -> y < x.
Proof.
  induction l as [|a t IH]; simpl; intros H.
  - split; [apply sorted_lt_nil|intros y []].
  - apply sorted_lt_cons in H. destruct H as (H1 & H2). destruct (IH H2) as (I1 & I2). split.
    + apply sorted_lt_cons. split; auto. intros y Hy. apply H1. rewrite in_app_iff. auto.
    + intros y [<-|Hy]; auto. apply H1. rewrite in_app_iff. simpl. auto.
Qed.

Lemma removelast_snoc (l : list nat) : 0 < length l -> l = removelast l ++ [l.[length l - 1]].
Proof.
  intros H. destruct (@exists_last _ l) as (l' & a & ->); [destruct l; [simpl in H; lia|discriminate]|].
  rewrite removelast_last, app_length. simpl. replace (length l' + 1 - 1) with (length l') by lia. now rewrite aget_app_last.
Qed.

Section Chain.
Variables (n : nat) (Lp Li : list nat).
Hypothesis W : wf_csc n Lp Li.
Hypothesis HF : diag_first n Lp Li.
Hypothesis HT : lower_tri n Lp Li.
Hypothesis HSC : sorted_cols n Lp Li.
Notation E := (edge n Lp Li).

Lemma edge_pos u k : u < n -> Lp.[u] < k < Lp.[S u] -> E u Li.[k].
Proof.
  intros Hu Hk. destruct (HF u Hu) as (_ & _ & H). unfold edge. splits; auto.
  - exists k. split; auto. lia.
  - intros H'. now apply (H k).
Qed.

Lemma pos_edge u v : E u v -> u < n /\ exists k, Lp.[u] < k < Lp.[S u] /\ Li.[k] = v.
Proof.
  intros (Hu & (k & Hk & Ek) & Hne). split; auto. exists k. split; auto.
  destruct (HF u Hu) as (_ & H & _). destruct (Nat.eq_dec k Lp.[u]) as [->|]; [congruence|lia].
Qed.

(** * In-degrees *)

Definition indeg (c i : nat) : nat := sum_r 0 i (fun u => cnt (S Lp.[u]) Lp.[S u] (fun k => Li.[k] =? c)).

Lemma chain_indegree_wp (Q : _ -> Prop) :
  (forall deg, length deg = n -> (forall c, c < n -> deg.[c] = indeg c n) -> Q deg) -> wp (chain_indegree n Lp Li) Q.
Proof.
  intros HQ. unfold chain_indegree. pose proof W as (W1 & W2 & W3 & W4 & W5).
  apply (wp_for (fun i deg => length deg = n /\ forall c, c < n -> deg.[c] = indeg c i)).
  - lia.
  - rewrite repeat_length. split; auto. intros c Hc. now rewrite aget_repeat.
  - intros i deg Hi (HL & HI). wp1. wp1; [lia|]. wp1. wp1; [lia|].
    destruct (HF i ltac:(lia)) as (Hlt & _).
    assert (HB : Lp.[S i] <= Lp.[n]) by (apply (mono_le (aget Lp) n); auto; lia).
    apply (wp_for (fun k deg => length deg = n /\ forall c, c < n -> deg.[c] = indeg c i + cnt (S Lp.[i]) k (fun k => Li.[k] =? c))).
    + lia.
    + split; auto. intros c Hc. rewrite HI by auto. unfold cnt. rewrite sum_r_nil by lia. lia.
    + intros k d Hk (HL' & HI'). wp1. wp1; [lia|].
      assert (Hc : Li.[k] < n) by (apply W5; lia).
      wp1. wp1; [lia|]. wp1; [lia|]. rewrite upd_length. split; auto.
      intros c Hc'. rewrite cnt_S by lia. destruct (Nat.eqb_spec Li.[k] c) as [->|].
      * rewrite aget_upd_eq by lia. rewrite HI' by auto. simpl. lia.
      * rewrite aget_upd_ne by auto. rewrite HI' by auto. simpl. lia.
    + intros d (HL' & HI'). split; auto. intros c Hc. rewrite HI' by auto. unfold indeg. rewrite sum_r_S by lia. lia.
  - intros deg (HL & HI). auto.
Qed.

Lemma indeg_zero c : indeg c n = 0 -> forall u, ~ E u c.
Proof.
  intros H u He. destruct (pos_edge u c He) as (Hu & k & Hk & Ek).
  pose proof (sum_r_zero _ _ _ H u ltac:(lia)) as Hz. cbv beta in Hz.
  pose proof (cnt_zero _ _ _ Hz k ltac:(lia)) as Hf. cbv beta in Hf. lia.
Qed.

Lemma indeg_pos c : 0 < indeg c n -> exists u, E u c.
Proof.
  intros H. apply sum_r_pos in H. destruct H as (u & Hu & H). apply cnt_pos in H. destruct H as (k & Hk & Ek).
  exists u. apply Nat.eqb_eq in Ek. rewrite <- Ek. apply edge_pos; lia.
Qed.

Lemma indeg_one c u u' : indeg c n = 1 -> E u c -> E u' c -> u = u'.
Proof.
  intros H He He'. destruct (pos_edge u c He) as (Hu & k & Hk & Ek). destruct (pos_edge u' c He') as (Hu' & k' & Hk' & Ek').
  destruct (Nat.eq_dec u u') as [|Hne]; auto. exfalso.
  set (f := fun u => cnt (S Lp.[u]) Lp.[S u] (fun k => Li.[k] =? c)).
  assert (G : 2 <= cnt 0 n (fun i => 0 <? f i)).
  { apply (cnt_ge_two 0 n _ u u'); auto; try lia.
    - assert (1 <= f u) by (apply (cnt_ge_one _ _ _ k); lia). lia.
    - assert (1 <= f u') by (apply (cnt_ge_one _ _ _ k'); lia). lia. }
  assert (cnt 0 n (fun i => 0 <? f i) <= sum_r 0 n f).
  { apply sum_r_le. intros i Hi. destruct (Nat.ltb_spec 0 (f i)); simpl; lia. }
  unfold indeg in H. fold f in H. lia.
Qed.

Variable deg : list nat.
Hypothesis HdL : length deg = n.
Hypothesis Hdg : forall c, c < n -> deg.[c] = indeg c n.

Lemma chain_sources_wp (Q : _ -> Prop) :
  (forall l, sorted_lt l -> (forall x, In x l <-> x < n /\ forall u, ~ E u x) -> Q l) -> wp (chain_sources n deg) Q.
Proof.
  intros HQ. unfold chain_sources.
  apply (wp_for (fun i l => sorted_lt l /\ forall x, In x l <-> x < i /\ forall u, ~ E u x)).
  - lia.
  - split; [apply sorted_lt_nil|]. intros x. split; [intros []|lia].
  - intros i l Hi (HN & HI). wp1. wp1; [lia|]. wp1. rewrite Hdg by lia.
    destruct (Nat.eqb_spec (indeg i n) 0) as [E1|E1].
    + split.
      * apply sorted_lt_app; auto; [apply sorted_lt_one|]. intros x y Hx [<-|[]]. apply HI in Hx. lia.
      * intros x. rewrite in_app_iff, HI. simpl. split.
        -- intros [(H1 & H2)|[<-|[]]]; split; auto. now apply indeg_zero.
        -- intros (H1 & H2). destruct (Nat.eq_dec x i) as [->|]; auto. left. split; auto. lia.
    + split; auto. intros x. rewrite HI. split; intros (H1 & H2); split; auto; try lia.
      destruct (Nat.eq_dec x i) as [->|]; [|lia]. destruct (indeg_pos i ltac:(lia)) as (u & Hu). now apply H2 in Hu.
  - intros l (HN & HI). auto.
Qed.

(** * The walk *)

Definition ci (D hl roots : list nat) : Prop :=
  NoDup (D ++ hl) /\ (forall x, In x (D ++ hl) -> ~ In x roots) /\ (forall x, In x (D ++ hl ++ roots) -> x < n) /\ sorted_lt roots /\
  (forall y x, In y roots -> In x hl -> y < x) /\
  (forall y, In y (D ++ hl ++ roots) -> (forall u, ~ E u y) \/ exists u, In u D /\ E u y) /\
  (forall u w, In u D -> E u w -> In w (D ++ hl ++ roots)) /\
  (forall x, x < n -> (forall u, ~ E u x) -> In x (D ++ hl ++ roots)).

Lemma ci_step D x roots nh newr : ci D [x] roots ->
  (nh = [] \/ exists c, nh = [c] /\ newr = []) -> sorted_lt newr ->
  (forall y, In y (nh ++ newr) -> E x y /\ ~ In y (D ++ [x])) ->
  (forall y, E x y -> In y (D ++ [x] ++ nh ++ newr)) -> ci (D ++ [x]) nh (roots ++ newr).
Proof.
  intros (C1 & C2 & C3 & C4 & C5 & C6 & C7 & C8) Hn HS HE HA.
  assert (Hlt : forall y, In y (nh ++ newr) -> x < y) by (intros y Hy; apply HT; now apply HE).
  assert (HR : forall y, In y roots -> y < x) by (intros y Hy; apply C5; simpl; auto).
  unfold ci. splits.
  - destruct Hn as [->|(c & -> & _)].
    + rewrite app_nil_r. auto.
    + apply NoDup_snoc; auto. apply HE. simpl. auto.
  - intros y Hy Hr. apply in_app_iff in Hr. destruct Hr as [Hr|Hr].
    + apply in_app_iff in Hy. destruct Hy as [Hy|Hy]; [now apply (C2 y)|].
      specialize (HR y Hr). specialize (Hlt y ltac:(rewrite in_app_iff; auto)). lia.
    + apply in_app_iff in Hy. destruct Hy as [Hy|Hy].
      * destruct (HE y ltac:(rewrite in_app_iff; auto)). contradiction.
      * destruct Hn as [->|(c & -> & ->)]; [destruct Hy|destruct Hr].
  - intros y Hy. assert (G : In y (D ++ [x] ++ roots) \/ In y (nh ++ newr)) by (rewrite !in_app_iff in *; tauto).
    destruct G as [G|G]; auto. destruct (HE y G) as (G' & _). now apply wf_edge_lt in G'.
  - apply sorted_lt_app; auto. intros a b Ha Hb. specialize (HR a Ha). specialize (Hlt b ltac:(rewrite in_app_iff; auto)). lia.
  - intros y z Hy Hz. apply in_app_iff in Hy. specialize (Hlt z ltac:(rewrite in_app_iff; auto)).
    destruct Hy as [Hy|Hy]; [specialize (HR y Hy); lia|]. destruct Hn as [->|(c & -> & ->)]; [destruct Hz|destruct Hy].
  - intros y Hy. assert (G : In y (D ++ [x] ++ roots) \/ In y (nh ++ newr)) by (rewrite !in_app_iff in *; tauto).
    destruct G as [G|G].
    + destruct (C6 y G) as [|(u & Hu & Hx)]; auto. right. exists u. split; auto. rewrite in_app_iff. auto.
    + right. exists x. split; [rewrite in_app_iff; simpl; auto|]. now apply HE.
  - intros u w Hu Hx. apply in_app_iff in Hu. destruct Hu as [Hu|[<-|[]]].
    + specialize (C7 u w Hu Hx). rewrite !in_app_iff in *. tauto.
    + specialize (HA w Hx). rewrite !in_app_iff in *. tauto.
  - intros y Hy Hs. specialize (C8 y Hy Hs). rewrite !in_app_iff in *. tauto.
Qed.

Lemma ci_bound D hl roots : ci D hl roots -> length D + length hl <= n.
Proof.
  intros (C1 & _ & C3 & _). rewrite <- app_length. apply NoDup_bounded_length; auto.
  intros x Hx. apply C3. rewrite !in_app_iff in *. tauto.
Qed.

Lemma ci_end D : ci D [] [] -> is_perm n D.
Proof.
  intros (C1 & _ & C3 & _ & _ & C6 & C7 & C8). rewrite !app_nil_r in *.
  assert (G : forall m x, x < m -> x < n -> In x D).
  { induction m as [|m IH]; intros x Hx Hn; [lia|].
    destruct (Nat.eq_dec (indeg x n) 0) as [Hz|Hz].
    - apply C8; auto. now apply indeg_zero.
    - destruct (indeg_pos x ltac:(lia)) as (u & Hu). apply (C7 u x); auto.
      pose proof (HT u x Hu). apply IH; lia. }
  assert (HL : n <= length D).
  { rewrite <- (seq_length n 0). apply NoDup_incl_length; [apply seq_NoDup|]. intros x Hx. apply in_seq in Hx. apply (G (S x)); lia. }
  pose proof (NoDup_bounded_length n D C1 C3). apply is_perm_intro; auto. lia.
Qed.

Definition link (u v : nat) : Prop := E u v /\ (forall w, E u w -> w = v) /\ (forall y, E y v -> y = u).

(** the pointers cut the placed nodes into chains *)
Definition cseg (ptr D : list nat) : Prop :=
  0 < length ptr /\ ptr.[0] = 0 /\ (forall q, S q < length ptr -> ptr.[q] < ptr.[S q]) /\
  ptr.[length ptr - 1] <= length D /\
  (forall i, S i < length D -> ~ In (S i) ptr -> link D.[i] D.[S i]).

Definition o2l (h : option nat) : list nat := match h with Some x => [x] | None => [] end.

Definition chain_inv (st : tg * option nat) : Prop :=
  let '(s, h) := st in let D := firstn (t_cnt s) (t_set s) in
  length (t_set s) = n /\ length D = t_cnt s /\ length (t_vis s) = n /\
  ci D (o2l h) (t_roots s) /\
  (forall x, In x D -> (t_vis s).[x] = true) /\ (forall x, x < n -> (t_vis s).[x] = true -> In x (D ++ o2l h)) /\
  cseg (t_ptr s) D /\ t_ng s = length (t_ptr s) /\
  (forall x, h = Some x -> (t_ptr s).[length (t_ptr s) - 1] < t_cnt s -> link D.[t_cnt s - 1] x) /\
  (h = None -> (t_ptr s).[length (t_ptr s) - 1] < t_cnt s).

Lemma chain_walk_wp fuel s x (Q : tg -> Prop) : chain_inv (s, Some x) -> n < fuel ->
  (forall s', chain_inv (s', None) -> t_cnt s < t_cnt s' -> Q s') ->
  wp (chain_walk fuel Lp Li deg s x) Q.
Proof.
  intros HI Hf HQ. unfold chain_walk. wp1.
  apply (wp_while (fun st : tg * option nat => let '(s', h) := st in chain_inv st /\ t_cnt s <= t_cnt s' /\ (h = None -> t_cnt s < t_cnt s'))
    (fun st => let '(s, _) := st in n - t_cnt s)); [split; [auto|split; [lia|discriminate]]|lia|].
  intros (s1 & h1) (HI1 & Hge & Hpr). cbn [wp]. destruct h1 as [y|]; [|cbn [wp]; auto].
  destruct HI1 as (I1 & I2 & I3 & CI & I4 & I5 & SG & Hng & I6 & _). cbv zeta in *. cbn [o2l] in *.
  set (D := firstn (t_cnt s1) (t_set s1)) in *.
  pose proof W as (W1 & W2 & W3 & W4 & W5).
  pose proof (ci_bound _ _ _ CI) as HB. simpl in HB.
  pose proof CI as (C1 & C2 & C3 & C4 & C5 & C6 & C7 & C8).
  assert (Hy : y < n) by (apply C3; rewrite !in_app_iff; simpl; auto).
  assert (HyD : ~ In y D).
  { intros H. apply NoDup_app_iff in C1. destruct C1 as (_ & _ & C). apply (C y H). simpl. auto. }
  destruct (HF y Hy) as (Hlt & _).
  assert (HBp : Lp.[S y] <= Lp.[n]) by (apply (mono_le (aget Lp) n); auto; lia).
  wp1. wp1; [lia|]. wp1. wp1; [lia|]. wp1. wp1; [lia|].
  set (vis := upd (t_vis s1) y true).
  assert (HLv : length vis = n) by (unfold vis; now rewrite upd_length).
  assert (V1 : forall z, In z (D ++ [y]) -> vis.[z] = true).
  { intros z Hz. destruct (Nat.eq_dec z y) as [->|Hne]; [unfold vis; now rewrite aget_upd_eq by lia|].
    unfold vis. rewrite aget_upd_ne by auto. apply I4. apply in_app_iff in Hz. destruct Hz as [|[|[]]]; auto. congruence. }
  assert (V2 : forall z, z < n -> vis.[z] = true -> In z (D ++ [y])).
  { intros z Hz Hv. destruct (Nat.eq_dec z y) as [->|Hne]; [rewrite in_app_iff; simpl; auto|].
    apply I5; auto. unfold vis in Hv. now rewrite aget_upd_ne in Hv by auto. }
  (* what the branches have to deliver *)
  assert (G : forall newr nh, (nh = None \/ newr = [] /\ exists c, nh = Some c /\ link y c) -> sorted_lt newr ->
     (forall z, In z (o2l nh ++ newr) -> E y z /\ ~ In z (D ++ [y])) ->
     (forall z, E y z -> In z (D ++ [y] ++ o2l nh ++ newr)) ->
     wp (set' <- wr (t_set s1) (t_cnt s1) y;; Ok (mkTG vis (t_roots s1 ++ newr) set' (S (t_cnt s1)) (t_ptr s1) (t_ng s1), nh))
       (fun s' : tg * option nat => (let '(s'0, h) := s' in chain_inv s' /\ t_cnt s <= t_cnt s'0 /\ (h = None -> t_cnt s < t_cnt s'0)) /\
          (let '(s0, _) := s' in n - t_cnt s0) < n - t_cnt s1)).
  { intros newr nh Hn HSn HE HA. wp1. wp1; [lia|]. wp1. cbn [t_cnt]. splits; [|lia|lia|lia].
    unfold chain_inv. cbv zeta. cbn [t_vis t_roots t_set t_cnt t_ptr t_ng].
    rewrite firstn_upd_snoc by lia. fold D. rewrite upd_length.
    assert (LDy : length (D ++ [y]) = S (t_cnt s1)) by (rewrite app_length; simpl; lia).
    destruct SG as (S1 & S2 & S3 & S4 & S5).
    splits; auto.
    - apply ci_step; auto. destruct Hn as [->|(-> & c & -> & _)]; [left; auto|right; exists c; auto].
    - intros z Hz Hv. specialize (V2 z Hz Hv). rewrite !in_app_iff in *. tauto.
    - unfold cseg. splits; auto; try lia. intros i Hi Hni. destruct (Nat.eq_dec (S i) (length D)) as [Ei|].
      + rewrite Ei, aget_app_last. rewrite aget_app1 by lia. replace i with (t_cnt s1 - 1) by lia. apply I6; auto.
        destruct (Nat.eq_dec (t_ptr s1).[length (t_ptr s1) - 1] (S i)) as [Eb|]; [|lia].
        elim Hni. rewrite <- Eb. apply aget_In. lia.
      + rewrite !aget_app1 by lia. apply S5; auto. lia.
    - intros c -> _. replace (S (t_cnt s1) - 1) with (length D) by lia. rewrite aget_app_last.
      destruct Hn as [|(_ & c' & Ec & HL)]; [discriminate|]. injection Ec as ->. auto.
    - intros _. lia. }
  assert (G' : forall newr nh, (nh = None \/ newr = [] /\ exists c, nh = Some c /\ link y c) -> sorted_lt newr ->
     (forall z, In z (o2l nh ++ newr) -> E y z /\ ~ In z (D ++ [y])) ->
     (forall z, E y z -> In z (D ++ [y] ++ o2l nh ++ newr)) ->
     wp (Ok (t_roots s1 ++ newr, nh)) (fun a : list nat * option nat => wp (let '(roots, nxt) := a in
        set' <- wr (t_set s1) (t_cnt s1) y;; Ok (mkTG vis roots set' (S (t_cnt s1)) (t_ptr s1) (t_ng s1), nxt))
       (fun s' : tg * option nat => (let '(s'0, h) := s' in chain_inv s' /\ t_cnt s <= t_cnt s'0 /\ (h = None -> t_cnt s < t_cnt s'0)) /\
          (let '(s0, _) := s' in n - t_cnt s0) < n - t_cnt s1))).
  { intros newr nh H1 H2 H3 H4. cbn [wp]. apply G; auto. }
  clear G. apply wp_bind. 
  destruct (Nat.eqb_spec (Lp.[S y] - Lp.[y]) 2) as [E2|E2].
  - wp1. wp1; [lia|]. set (c := Li.[S Lp.[y]]).
    assert (Hc : c < n) by (apply W5; lia).
    assert (Hyc : E y c) by (apply edge_pos; auto; lia).
    assert (HU : forall w, E y w -> w = c).
    { intros w Hw. destruct (pos_edge y w Hw) as (_ & k & Hk & <-). unfold c. f_equal. lia. }
    pose proof (HT y c Hyc) as Hlc.
    wp1. wp1; [lia|]. rewrite Hdg by auto. destruct (Nat.eqb_spec (indeg c n) 1) as [Ed|Ed].
    + rewrite <- (app_nil_r (t_roots s1)) at 1. apply G'.
      * right. split; auto. exists c. split; auto. unfold link. splits; auto. intros z Hz. now apply (indeg_one c).
      * apply sorted_lt_nil.
      * simpl. intros z [<-|[]]. split; auto. intros Hin.
        destruct (C6 c) as [Hs|(u & Hu & Hx)].
        -- rewrite !in_app_iff in *. tauto.
        -- now apply Hs in Hyc.
        -- rewrite (indeg_one c u y) in Hu by auto. contradiction.
      * intros z Hz. rewrite (HU z Hz). rewrite !in_app_iff. simpl. auto.
    + destruct (Nat.ltb_spec 1 (indeg c n)) as [El|El].
      * wp1. wp1; [lia|]. destruct (vis.[c]) eqn:Ev.
        -- rewrite <- (app_nil_r (t_roots s1)) at 1. apply G'; auto.
           ++ apply sorted_lt_nil.
           ++ intros z [].
           ++ intros z Hz. rewrite (HU z Hz). specialize (V2 c Hc Ev). rewrite !in_app_iff in *. tauto.
        -- apply G'; auto.
           ++ apply sorted_lt_one.
           ++ simpl. intros z [<-|[]]. split; auto. intros Hin. apply V1 in Hin. congruence.
           ++ intros z Hz. rewrite (HU z Hz). rewrite !in_app_iff. simpl. auto.
      * assert (Ez : indeg c n = 0) by lia. now apply (indeg_zero c Ez) in Hyc.
  - apply wp_bind.
    apply (wp_for (fun k roots => exists newr, roots = t_roots s1 ++ newr /\ sorted_lt newr /\
       forall z, In z newr <-> vis.[z] = false /\ exists j, S Lp.[y] <= j < k /\ Li.[j] = z)).
    + lia.
    + exists []. rewrite app_nil_r. splits; auto; [apply sorted_lt_nil|]. intros z. split; [intros []|intros (_ & j & Hj & _); lia].
    + intros k roots Hk (newr & -> & HS & HIn). wp1. wp1; [lia|].
      assert (Hc : Li.[k] < n) by (apply W5; lia).
      wp1. wp1; [lia|]. wp1. destruct (vis.[Li.[k]]) eqn:Ev.
      * exists newr. splits; auto. intros z. rewrite HIn. split; intros (H1 & j & Hj & Ej); split; auto; exists j; split; auto; try lia.
        destruct (Nat.eq_dec j k) as [->|]; [|lia]. congruence.
      * exists (newr ++ [Li.[k]]). splits.
        -- now rewrite app_assoc.
        -- apply sorted_lt_app; auto; [apply sorted_lt_one|]. intros a b Ha [<-|[]]. apply HIn in Ha.
           destruct Ha as (_ & j & Hj & <-). apply (HSC y); auto; lia.
        -- intros z. rewrite in_app_iff, HIn. simpl. split.
           ++ intros [(H1 & j & Hj & Ej)|[<-|[]]]; split; auto; [exists j; split; auto; lia|exists k; split; auto; lia].
           ++ intros (H1 & j & Hj & Ej). destruct (Nat.eq_dec j k) as [->|]; auto. left. split; auto. exists j. split; auto. lia.
    + intros roots (newr & -> & HS & HIn). apply G'; auto.
      * simpl. intros z Hz. apply HIn in Hz. destruct Hz as (Hv & j & Hj & <-). split; [apply edge_pos; auto; lia|].
        intros Hin. apply V1 in Hin. congruence.
      * intros z Hz. pose proof (wf_edge_lt n Lp Li W _ _ Hz) as (_ & Hzn). destruct (pos_edge y z Hz) as (_ & k & Hk & Ek).
        destruct (vis.[z]) eqn:Ev.
        -- specialize (V2 z Hzn Ev). rewrite !in_app_iff in *. tauto.
        -- rewrite !in_app_iff. simpl. right. right. right. apply HIn. split; auto. exists k. split; auto; lia.
Qed.

Definition chain_outer (s : tg) : Prop :=
  let D := firstn (t_cnt s) (t_set s) in
  length (t_set s) = n /\ length D = t_cnt s /\ length (t_vis s) = n /\ ci D [] (t_roots s) /\
  (forall x, In x D -> (t_vis s).[x] = true) /\ (forall x, x < n -> (t_vis s).[x] = true -> In x D) /\
  t_ng s = length (t_ptr s) /\
  ((t_cnt s = 0 /\ t_ptr s = []) \/ (cseg (t_ptr s) D /\ (t_ptr s).[length (t_ptr s) - 1] < t_cnt s)).

Lemma cseg_push ptr D : cseg ptr D -> ptr.[length ptr - 1] < length D -> cseg (ptr ++ [length D]) D.
Proof.
  intros (S1 & S2 & S3 & S4 & S5) Hlt. unfold cseg. rewrite app_length. simpl length. splits.
  - lia.
  - now rewrite aget_app1 by lia.
  - intros q Hq. rewrite aget_app1 by lia. destruct (Nat.eq_dec (S q) (length ptr)) as [Eq|].
    + rewrite Eq, aget_app_last. replace q with (length ptr - 1) by lia. lia.
    + rewrite aget_app1 by lia. apply S3. lia.
  - replace (length ptr + 1 - 1) with (length ptr) by lia. rewrite aget_app_last. lia.
  - intros i Hi Hb. apply S5; auto. intros H. apply Hb. rewrite in_app_iff. auto.
Qed.

Lemma chain_walks_wp roots (Q : tg -> Prop) : 0 < n -> sorted_lt roots -> (forall x, In x roots <-> x < n /\ forall u, ~ E u x) ->
  (forall s, raw_groups n (t_ng s) (t_ptr s) (t_set s) -> chain_groups E (t_ng s) (t_ptr s) (t_set s) -> Q s) ->
  wp (chain_walks n Lp Li deg roots) Q.
Proof.
  intros Hn HN HI HQ. unfold chain_walks. wp1.
  apply (wp_while chain_outer (fun s => n - t_cnt s)).
  - unfold chain_outer. cbv zeta. cbn [t_vis t_roots t_set t_cnt t_ptr t_ng]. rewrite !repeat_length. simpl firstn.
    splits; auto.
    + unfold ci. simpl. splits; auto; try (intros; contradiction); try apply NoDup_nil.
      * intros x Hx. now apply HI.
      * intros y Hy. left. now apply HI.
      * intros x Hx Hs. now apply HI.
    + intros x Hx. rewrite aget_repeat by auto. discriminate.
  - cbn [t_cnt]. lia.
  - intros s (I1 & I2 & I3 & CI & I4 & I5 & Hng & HS). cbv zeta in *. cbn [wp].
    set (D := firstn (t_cnt s) (t_set s)) in *.
    destruct (Nat.eqb_spec (length (t_roots s)) 0) as [E0|E0]; cbn [negb].
    + assert (Er : t_roots s = []) by (destruct (t_roots s); auto; simpl in E0; lia). rewrite Er in CI.
      pose proof (ci_end D CI) as HP.
      assert (Ec : t_cnt s = n) by (rewrite <- I2; apply HP).
      assert (ED : D = t_set s) by (unfold D; rewrite Ec, <- I1; apply firstn_all).
      destruct HS as [(HS & _)|(SG & HS)]; [lia|]. pose proof SG as (S1 & _ & _ & S4 & _).
      wp1. apply wp_back; [lia|]. wp1.
      destruct (Nat.eqb_spec (t_ptr s).[length (t_ptr s) - 1] (t_cnt s)) as [Eb|Eb]; [lia|].
      apply cseg_push in SG; [|lia]. rewrite I2, Ec in SG. rewrite ED in *. rewrite Ec in *.
      destruct SG as (A1 & A2 & A3 & A4 & A5). rewrite app_length in *. simpl length in *.
      assert (Hlast : (t_ptr s ++ [n]).[length (t_ptr s)] = n) by apply aget_app_last.
      assert (HM : forall a b, a <= b -> b <= length (t_ptr s) -> (t_ptr s ++ [n]).[a] <= (t_ptr s ++ [n]).[b]).
      { apply (mono_le (aget (t_ptr s ++ [n]))). intros i Hi. specialize (A3 i ltac:(lia)). lia. }
      apply HQ; cbn [t_ptr t_set t_ng]; rewrite Hng.
      * unfold raw_groups. rewrite app_length. simpl. splits; auto; try lia. intros g Hg. apply A3. lia.
      * intros g k Hg Hk Hk'. pose proof (HM (S g) (length (t_ptr s)) ltac:(lia) ltac:(lia)).
        apply A5; [lia|]. intros Hin. apply In_aget in Hin. destruct Hin as (a & Ha & Ea).
        rewrite app_length in Ha. simpl in Ha.
        destruct (le_lt_dec a g) as [L|L].
        -- pose proof (HM a g L ltac:(lia)). lia.
        -- pose proof (HM (S g) a ltac:(lia) ltac:(lia)). lia.
    + wp1. apply wp_back; [lia|]. wp1. apply wp_pop_back; [lia|].
      pose proof (removelast_snoc (t_roots s) ltac:(lia)) as HPm.
      set (x := (t_roots s).[length (t_roots s) - 1]) in *. set (roots' := removelast (t_roots s)) in *.
      pose proof CI as (C1 & C2 & C3 & C4 & C5 & C6 & C7 & C8). rewrite HPm in *. simpl app in *. rewrite app_nil_r in *.
      destruct (sorted_lt_snoc_inv roots' x C4) as (R1 & R2).
      assert (Hx : x < n) by (apply C3; rewrite !in_app_iff; simpl; auto).
      assert (HxD : ~ In x D) by (intros H; apply (C2 x H); rewrite in_app_iff; simpl; auto).
      assert (HPe : forall y, In y (D ++ [x] ++ roots') <-> In y (D ++ roots' ++ [x])) by (intros y; rewrite !in_app_iff; tauto).
      wp1. wp1; [lia|].
      assert (CI' : ci D [x] roots').
      { unfold ci. splits; auto.
        - apply NoDup_snoc; auto.
        - intros y Hy Hr. apply in_app_iff in Hy. destruct Hy as [Hy|[<-|[]]].
          + apply (C2 y Hy). rewrite in_app_iff. auto.
          + specialize (R2 x Hr). lia.
        - intros y Hy. apply C3. now apply HPe.
        - intros y z Hy [<-|[]]. auto.
        - intros y Hy. apply C6. now apply HPe.
        - intros u w Hu Hw. apply HPe. eauto.
        - intros y Hy Hs. apply HPe. auto. }
      pose proof (ci_bound _ _ _ CI') as HB. simpl in HB.
      assert (SG' : cseg (t_ptr s ++ [t_cnt s]) D).
      { destruct HS as [(HS1 & HS2)|(SG & HS1)].
        - rewrite HS1, HS2. unfold cseg. simpl. splits; auto; try lia; intros; try lia. apply Nat.le_0_l.
        - rewrite <- I2. apply cseg_push; auto. lia. }
      apply chain_walk_wp; [|lia|].
      * unfold chain_inv. cbv zeta. cbn [t_vis t_roots t_set t_cnt t_ptr t_ng o2l]. fold D. rewrite upd_length, app_length. simpl length.
        replace (length (t_ptr s) + 1 - 1) with (length (t_ptr s)) by lia. rewrite aget_app_last.
        splits; auto; try lia.
        -- intros y Hy. destruct (Nat.eq_dec y x) as [->|]; [rewrite aget_upd_eq by lia; auto|rewrite aget_upd_ne by auto; auto].
        -- intros y Hy Hv. rewrite in_app_iff. simpl. destruct (Nat.eq_dec y x) as [->|]; auto. left. apply I5; auto.
           now rewrite aget_upd_ne in Hv by auto.
        -- discriminate.
      * cbn [t_cnt]. intros s' (X1 & X2 & X3 & X4 & X5 & X6 & X7 & X8 & _ & X9) Hlt. cbv zeta in *. cbn [o2l] in *.
        rewrite app_nil_r in X6. split; [|lia]. unfold chain_outer. cbv zeta. splits; auto.
Qed.

End Chain.

(** * chainGrouping as a whole *)

Lemma chain_groups_renamed E ng ptr set gp gs rho : chain_groups E ng ptr set -> renamed ng ptr set gp gs rho -> chain_groups E ng gp gs.
Proof.
  intros HC (N1 & N2 & N3) g k Hg Hk Hk'. destruct (N3 g Hg) as (M1 & M2).
  pose proof (M2 (k - gp.[g]) ltac:(lia)) as A. pose proof (M2 (S k - gp.[g]) ltac:(lia)) as B.
  replace (gp.[g] + (k - gp.[g])) with k in A by lia. replace (gp.[g] + (S k - gp.[g])) with (S k) in B by lia.
  replace (ptr.[rho g] + (S k - gp.[g])) with (S (ptr.[rho g] + (k - gp.[g]))) in B by lia.
  rewrite A, B. apply (HC (rho g)); auto; lia.
Qed.

Lemma chain_groups_acyclic E n ng gp gs : grouping n ng gp gs -> chain_groups E ng gp gs -> acyclic E -> acyclic (quotient E ng gp gs).
Proof.
  intros (G1 & G2 & GP & G3) HC HA.
  assert (HL : forall g k, g < ng -> gp.[g] <= k < gp.[S g] -> reaches E gs.[k] gs.[gp.[S g] - 1]).
  { intros g. assert (X : forall m k, g < ng -> gp.[g] <= k < gp.[S g] -> gp.[S g] - k <= m -> reaches E gs.[k] gs.[gp.[S g] - 1]).
    { induction m as [|m IH]; intros k Hg Hk Hm; [lia|]. destruct (Nat.eq_dec (S k) gp.[S g]) as [Ek|].
      - replace (gp.[S g] - 1) with k by lia. exists 0. constructor.
      - destruct (HC g k Hg ltac:(lia) ltac:(lia)) as (H1 & _). destruct (IH (S k)) as (j & Hj); auto; try lia.
        exists (S j). eapply chain_cons; eauto. }
    intros k Hg Hk. apply (X (gp.[S g] - k)); auto. }
  apply (quotient_acyclic_of E ng gp gs (fun g => gs.[gp.[S g] - 1]) (fun _ => 0)); auto.
  - intros g u Hg (k & Hk & <-). auto.
  - intros g h u v Hg Hh Hne (k & Hk & <-) Hv He Hr. exfalso. apply Hne.
    destruct (Nat.eq_dec (S k) gp.[S g]) as [Ek|].
    + elim Hr. f_equal. lia.
    + destruct (HC g k Hg ltac:(lia) ltac:(lia)) as (_ & H2 & _). apply H2 in He. subst v.
      destruct Hv as (k' & Hk' & Ek'). destruct GP as (P1 & P2 & P3 & P4 & P5).
      assert (Hb : forall g, g < ng -> gp.[S g] <= n).
      { intros x Hx. rewrite <- P3. apply (mono_le (aget gp) ng); auto; lia. }
      pose proof (Hb g Hg). pose proof (Hb h Hh).
      assert (k' = S k) by (apply P5; auto; lia). subst k'.
      apply (bucket_unique (aget gp) ng g h (S k)); auto. lia.
Qed.

Definition chain_result n Lp Li ng gp gs : Prop :=
  grouping n ng gp gs /\ by_smallest ng gp gs /\
  acyclic (quotient (edge n Lp Li) ng gp gs) /\ chain_groups (edge n Lp Li) ng gp gs.

Lemma chainGrouping_wp n Lp Li (Q : _ -> Prop) :
  wf_csc n Lp Li -> diag_first n Lp Li -> lower_tri n Lp Li -> sorted_cols n Lp Li -> 0 < n ->
  (forall ng gp gs, chain_result n Lp Li ng gp gs -> Q (ng, gp, gs)) ->
  wp (chainGrouping n Lp Li) Q.
Proof.
  intros W HF HT HS Hn HQ. unfold chainGrouping. pose proof W as (W1 & _). wp1. wp1; [lia|].
  wp1. apply chain_indegree_wp; auto. intros deg D1 D2.
  wp1. apply (chain_sources_wp n Lp Li HF deg); auto. intros roots R1 R2.
  wp1. apply chain_walks_wp; auto. intros s RG CG.
  wp1. apply renumber_groups_wp; auto. intros gp gs rho A1 A2 A3. wp1. apply HQ.
  pose proof (chain_groups_renamed _ _ _ _ _ _ _ CG A2) as CG'. pose proof (raw_groups_grouping _ _ _ _ A1) as GG.
  unfold chain_result. splits; auto. eapply chain_groups_acyclic; eauto. now apply lower_tri_acyclic.
Qed.
