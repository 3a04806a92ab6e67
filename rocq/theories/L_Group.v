(** Proofs about buildGroupDAG. *)
From Coq Require Import ZifyBool ZifyNat.
From Verif Require Import Base Lib Lib2 Lib3 Spec SpecSolve M_Group.

(** compressed columns of the lists [cols] *)
Definition packed (cols : list (list nat)) (p s : list nat) : Prop :=
  length p = S (length cols) /\ (forall g, g <= length cols -> p.[g] = sum_r 0 g (fun h => length cols.[h])) /\
  length s = p.[length cols] /\
  (forall g j, g < length cols -> j < length cols.[g] -> s.[p.[g] + j] = cols.[g].[j]).

Lemma list_sum_aget (cols : list (list nat)) :
  list_sum (map (@length nat) cols) = sum_r 0 (length cols) (fun h => length cols.[h]).
Proof.
  unfold sum_r. rewrite Nat.sub_0_r. f_equal. rewrite <- (map_aget_seq cols) at 1. now rewrite map_map.
Qed.

Lemma pack_columns_wp ng cols (Q : _ -> Prop) : length cols = ng ->
  (forall p s, packed cols p s -> Q (p, s)) -> wp (pack_columns ng cols) Q.
Proof.
  intros HL HQ. unfold pack_columns. wp1. rewrite list_sum_aget, HL.
  set (F := fun h => length cols.[h]).
  assert (HM : forall a b, a <= b -> b <= ng -> sum_r 0 a F <= sum_r 0 b F).
  { intros a b Hab Hb. rewrite (sum_r_split 0 a b) by lia. lia. }
  apply (wp_for (fun g st => let '(p, s, e) := st in length p = S ng /\ length s = sum_r 0 ng F /\
     e = sum_r 0 g F /\ (forall h, h < g -> p.[h] = sum_r 0 h F) /\
     (forall h j, h < g -> j < F h -> s.[sum_r 0 h F + j] = cols.[h].[j]))); [lia| | |].
  - rewrite !repeat_length. splits; auto; try lia; intros; lia.
  - intros g [[p s] e] Hg (Lp & Ls & Ee & Hp & Hs).
    wp1. wp1; [lia|]. wp1. wp1; [lia|]. wp1.
    assert (HSg : sum_r 0 (S g) F = sum_r 0 g F + F g) by (apply sum_r_S; lia).
    pose proof (HM (S g) ng ltac:(lia) ltac:(lia)) as Hle.
    apply (wp_for (fun i st => let '(s', e') := st in length s' = sum_r 0 ng F /\ e' = sum_r 0 g F + i /\
       (forall h j, h < g -> j < F h -> s'.[sum_r 0 h F + j] = cols.[h].[j]) /\
       (forall j, j < i -> s'.[sum_r 0 g F + j] = cols.[g].[j]))); [lia| | |].
    + splits; auto; try lia; intros; lia.
    + intros i [s' e'] Hi (L' & E' & H1 & H2). fold (F g) in Hi.
      wp1. wp1; [fold (F g); lia|]. wp1. wp1; [lia|]. wp1. splits.
      * now rewrite upd_length.
      * lia.
      * intros h j Hh Hj. rewrite aget_upd_ne; auto.
        pose proof (HM (S h) g ltac:(lia) ltac:(lia)) as Q1. rewrite sum_r_S in Q1 by lia. lia.
      * intros j Hj. rewrite aget_upd by lia. destruct (Nat.eqb_spec (sum_r 0 g F + j) e').
        { f_equal. lia. } apply H2. lia.
    + intros [s' e'] (L' & E' & H1 & H2). fold (F g) in E', H2. wp1. splits.
      * now rewrite upd_length.
      * auto.
      * lia.
      * intros h Hh. rewrite aget_upd by lia. destruct (Nat.eqb_spec h g) as [->|]; auto. apply Hp. lia.
      * intros h j Hh Hj. destruct (Nat.eq_dec h g) as [->|]; auto. apply H1; auto. lia.
  - intros [[p s] e] (Lp & Ls & Ee & Hp & Hs). wp1. wp1; [lia|]. wp1. apply HQ.
    assert (HP : forall g, g <= ng -> (upd p ng e).[g] = sum_r 0 g F).
    { intros g Hg. rewrite aget_upd by lia. destruct (Nat.eqb_spec g ng) as [->|]; auto. apply Hp. lia. }
    unfold packed. rewrite HL. splits.
    + now rewrite upd_length.
    + auto.
    + rewrite HP by lia. auto.
    + intros g j Hg Hj. rewrite HP by lia. apply Hs; auto.
Qed.

Section GroupDAG.
Variables (n ng : nat) (gp gs Lp Li : list nat).
Hypothesis W : wf_csc n Lp Li.
Hypothesis GP : group_partition n ng gp gs.
Hypothesis HLg : ng < length gp.
Hypothesis HLs : n <= length gs.

Lemma gp_mono i j : i <= j -> j <= ng -> gp.[i] <= gp.[j].
Proof. apply (mono_le (aget gp) ng). apply GP. Qed.

Lemma gp_le i : i <= ng -> gp.[i] <= n.
Proof. intros Hi. pose proof (gp_mono i ng Hi ltac:(lia)). destruct GP as (_ & _ & Hk & _). lia. Qed.

Lemma gs_lt k : k < n -> gs.[k] < n. Proof. apply GP. Qed.

Lemma group_inverse_wp (Q : list nat -> Prop) :
  (forall inv, length inv = n -> (forall g v, g < ng -> in_level gp gs g v -> inv.[v] = g) -> Q inv) ->
  wp (group_inverse n ng gp gs) Q.
Proof.
  intros HQ. unfold group_inverse.
  pose proof GP as (G0 & Gm & Gn & Gb & Gi).
  set (I := fun m (inv : list nat) => length inv = n /\
    forall g k, g < ng -> k < m -> gp.[g] <= k < gp.[S g] -> inv.[gs.[k]] = g).
  apply (wp_for (fun g inv => I gp.[g] inv)); [lia| | |].
  - split; [apply repeat_length|]. intros g k _ Hk. lia.
  - intros g inv Hg HI. wp1. wp1; [lia|]. wp1. wp1; [lia|].
    pose proof (gp_le (S g) ltac:(lia)) as Hle.
    apply (wp_for I); [apply Gm; lia|auto| |auto].
    intros i inv' Hi (L & HI'). wp1. wp1; [lia|]. wp1; [rewrite L; apply Gb; lia|].
    split; [now rewrite upd_length|]. intros h k Hh Hk Hb. rewrite aget_upd by (rewrite L; apply Gb; lia).
    destruct (Nat.eqb_spec gs.[k] gs.[i]) as [E|E].
    + apply Gi in E; [|pose proof (gp_le (S h) ltac:(lia)); lia|lia]. subst k.
      apply (bucket_unique (aget gp) ng g h i); auto; lia.
    + apply HI'; auto. destruct (Nat.eq_dec k i); [congruence|lia].
  - intros inv (L & HI). apply HQ; auto. intros g v Hg (k & Hk & <-). apply HI; auto.
    pose proof (gp_le (S g) ltac:(lia)). lia.
Qed.

Lemma group_children_wp inv g (Q : list nat -> Prop) : length inv = n -> g < ng ->
  (forall l, (forall h, In h l <-> exists u v, in_level gp gs g u /\ entry Lp Li u v /\ inv.[v] = h) -> Q l) ->
  wp (group_children gp gs Lp Li inv g) Q.
Proof.
  intros L Hg HQ. unfold group_children.
  pose proof GP as (G0 & Gm & Gn & Gb & Gi). pose proof W as (W1 & W2 & W3 & W4 & W5).
  wp1. wp1; [lia|]. wp1. wp1; [lia|].
  pose proof (gp_le (S g) ltac:(lia)) as Hle.
  apply (wp_for (fun m l => forall h, In h l <-> exists k v, gp.[g] <= k < m /\ entry Lp Li gs.[k] v /\ inv.[v] = h));
    [apply Gm; lia| | |].
  - intros h. split; [intros []|]. intros (k & v & Hk & _). lia.
  - intros k l Hk HI. wp1. wp1; [lia|].
    pose proof (Gb k ltac:(lia)) as Hu. set (u := gs.[k]) in *.
    wp1. wp1; [lia|]. wp1. wp1; [lia|].
    apply (wp_for (fun m l => forall h, In h l <-> (exists k' v, gp.[g] <= k' < k /\ entry Lp Li gs.[k'] v /\ inv.[v] = h) \/
       exists j, Lp.[u] <= j < m /\ inv.[Li.[j]] = h)); [apply W3; lia| | |].
    + intros h. rewrite HI. split; [auto|]. intros [H|(j & Hj & _)]; auto. lia.
    + intros j l' Hj HI'. destruct (wf_col_lt n Lp Li W u j ltac:(lia) ltac:(lia)) as [J1 J2].
      wp1. wp1; [lia|]. wp1. wp1; [rewrite L; apply W5; lia|]. wp1. intros h. rewrite in_app_iff, HI'. simpl. split.
      * intros [[H|(j' & Hj' & E)]|[<-|[]]]; auto; right; [exists j'|exists j]; split; auto; lia.
      * intros [H|(j' & Hj' & E)]; auto. destruct (Nat.eq_dec j' j) as [->|]; auto.
        left. right. exists j'. split; auto. lia.
    + intros l' HI' h. rewrite HI'. split.
      * intros [(k' & v & Hk' & H)|(j & Hj & E)]; [exists k', v; split; auto; lia|].
        exists k, Li.[j]. splits; auto; try lia. exists j. auto.
      * intros (k' & v & Hk' & He & E). destruct (Nat.eq_dec k' k) as [->|].
        { right. destruct He as (j & Hj & E'). exists j. split; auto. congruence. }
        left. exists k', v. splits; auto; lia.
  - intros l HI. apply HQ. intros h. rewrite HI. split.
    + intros (k & v & Hk & H). exists gs.[k], v. split; auto. exists k. auto.
    + intros (u & v & (k & Hk & <-) & H). exists k, v. auto.
Qed.

Lemma group_columns_wp inv (Q : _ -> Prop) : length inv = n ->
  (forall cols, length cols = ng -> (forall g, g < ng -> sorted_lt cols.[g] /\
     forall h, In h cols.[g] <-> exists u v, in_level gp gs g u /\ entry Lp Li u v /\ inv.[v] = h) -> Q cols) ->
  wp (group_columns ng gp gs Lp Li inv) Q.
Proof.
  intros L HQ. unfold group_columns.
  apply (wp_for (fun m cols => length cols = m /\ forall g, g < m -> sorted_lt cols.[g] /\
     forall h, In h cols.[g] <-> exists u v, in_level gp gs g u /\ entry Lp Li u v /\ inv.[v] = h)); [lia| | |].
  - split; auto. intros; lia.
  - intros g cols Hg (Lc & HI). wp1. apply group_children_wp; auto; [lia|]. intros l Hl. wp1. split.
    + rewrite app_length. simpl. lia.
    + intros g' Hg'. destruct (Nat.eq_dec g' g) as [->|].
      * rewrite <- Lc, aget_app_last, Lc. split; [apply uniq_sorted, isort_sorted|].
        intros h. now rewrite uniq_In, isort_In.
      * rewrite aget_app1 by lia. apply HI. lia.
  - intros cols (Lc & HI). apply HQ; auto.
Qed.

Lemma in_level_lt g v : g < ng -> in_level gp gs g v -> v < n.
Proof. intros Hg (k & Hk & <-). apply gs_lt. pose proof (gp_le (S g) ltac:(lia)). lia. Qed.

Lemma in_level_exists v : v < n -> exists g, g < ng /\ in_level gp gs g v.
Proof.
  intros Hv. pose proof GP as (G0 & Gm & Gn & Gb & Gi).
  destruct (inj_onto n (aget gs) Gb Gi v Hv) as (k & Hk & <-).
  destruct (bucket_exists (aget gp) ng k) as (g & Hg & Hb); try lia. exists g. split; auto. exists k. auto.
Qed.

Lemma in_level_unique g h v : g < ng -> h < ng -> in_level gp gs g v -> in_level gp gs h v -> g = h.
Proof.
  intros Hg Hh (k & Hk & E) (k' & Hk' & E'). pose proof GP as (G0 & Gm & Gn & Gb & Gi).
  assert (k = k').
  { apply Gi; try congruence; [pose proof (gp_le (S g) ltac:(lia))|pose proof (gp_le (S h) ltac:(lia))]; lia. }
  subst k'. apply (bucket_unique (aget gp) ng g h k); auto.
Qed.

Lemma entry_lt u v : u < n -> entry Lp Li u v -> v < n.
Proof. intros Hu (k & Hk & <-). apply W. apply (wf_col_lt n Lp Li W u k); lia. Qed.

(** exact compressed quotient *)
Definition group_dag_exact (p s : list nat) : Prop :=
  wf_csc ng p s /\ sorted_cols ng p s /\ length p = S ng /\ length s = p.[ng] /\
  forall g h, g < ng -> (entry p s g h <-> h < ng /\ exists u v, in_level gp gs g u /\ in_level gp gs h v /\ entry Lp Li u v).

Lemma buildGroupDAG_wp (Q : _ -> Prop) :
  (forall p s, group_dag_exact p s -> Q (p, s)) -> wp (buildGroupDAG n ng gp gs Lp Li) Q.
Proof.
  intros HQ. unfold buildGroupDAG. wp1. apply group_inverse_wp. intros inv Linv HInv.
  wp1. apply group_columns_wp; auto. intros cols Lc Hcols.
  apply pack_columns_wp; auto. intros p s (P1 & P2 & P3 & P4). apply HQ. rewrite Lc in *.
  assert (PS : forall g, g < ng -> p.[S g] = p.[g] + length cols.[g]).
  { intros g Hg. rewrite !P2 by lia. rewrite sum_r_S by lia. auto. }
  assert (HE : forall g h, g < ng -> (entry p s g h <-> In h cols.[g])).
  { intros g h Hg. split.
    - intros (k & Hk & <-). rewrite PS in Hk by auto. replace k with (p.[g] + (k - p.[g])) by lia.
      rewrite P4 by lia. apply aget_In. lia.
    - intros H. apply In_aget in H. destruct H as (j & Hj & <-). exists (p.[g] + j).
      rewrite PS by auto. split; [lia|]. now apply P4. }
  assert (HX : forall g h, g < ng -> (entry p s g h <-> h < ng /\ exists u v, in_level gp gs g u /\ in_level gp gs h v /\ entry Lp Li u v)).
  { intros g h Hg. rewrite HE by auto. destruct (Hcols g Hg) as [_ HI]. rewrite HI. split.
    - intros (u & v & Hu & He & Eh). pose proof (entry_lt u v (in_level_lt g u Hg Hu) He) as Hv.
      destruct (in_level_exists v Hv) as (h' & Hh' & Hin). rewrite (HInv h' v Hh' Hin) in Eh. subst h'.
      split; auto. exists u, v. auto.
    - intros (Hh & u & v & Hu & Hv & He). exists u, v. splits; auto. }
  unfold group_dag_exact. splits; auto.
  - unfold wf_csc. splits; try lia.
    + rewrite P2 by lia. apply sum_r_nil. lia.
    + intros i Hi. rewrite PS by auto. lia.
    + intros k Hk. destruct (bucket_exists (aget p) ng k) as (g & Hg & Hb).
      { pose proof (P2 0 ltac:(lia)) as P0. rewrite sum_r_nil in P0 by lia. lia. } { auto. }
      apply (HX g s.[k] Hg). exists k. auto.
  - intros g k k' Hg Hk Hkk Hk'. destruct (Hcols g Hg) as [HS _]. rewrite PS in Hk' by auto.
    replace k with (p.[g] + (k - p.[g])) by lia. replace k' with (p.[g] + (k' - p.[g])) by lia.
    rewrite !P4 by lia. apply HS; lia.
Qed.

Lemma group_dag_quotient p s : group_dag_exact p s ->
  forall g h, edge ng p s g h <-> quotient (edge n Lp Li) ng gp gs g h.
Proof.
  intros (_ & _ & _ & _ & HX) g h. split.
  - intros (Hg & He & Hne). apply HX in He; auto. destruct He as (Hh & u & v & Hu & Hv & He).
    unfold quotient. splits; auto. exists u, v. splits; auto. unfold edge. splits; auto.
    + apply (in_level_lt g u); auto.
    + intros ->. elim Hne. apply (in_level_unique g h v); auto.
  - intros (Hg & Hh & Hne & u & v & Hu & Hv & (Hu' & He & _)). unfold edge. splits; auto.
    apply HX; auto. split; auto. exists u, v. auto.
Qed.

Lemma group_dag_diag p s : group_dag_exact p s -> one_diag n Lp Li ->
  (forall g, g < ng -> gp.[g] < gp.[S g]) -> one_diag ng p s.
Proof.
  intros (_ & HS & _ & _ & HX) HD HN g Hg.
  assert (He : entry p s g g).
  { apply HX; auto. split; auto. specialize (HN g Hg). exists gs.[gp.[g]], gs.[gp.[g]].
    assert (in_level gp gs g gs.[gp.[g]]) by (exists gp.[g]; split; auto; lia).
    splits; auto. destruct (HD _ (in_level_lt g _ Hg H)) as (k & Hk & _). exists k. auto. }
  destruct He as (k & Hk & Ek). exists k. split; [auto|]. intros k' Hk' Ek'.
  destruct (Nat.lt_total k k') as [H|[H|H]]; auto.
  - pose proof (HS g k k' Hg ltac:(lia) H ltac:(lia)). lia.
  - pose proof (HS g k' k Hg ltac:(lia) H ltac:(lia)). lia.
Qed.

End GroupDAG.
