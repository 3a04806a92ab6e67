(** Valid schedules give well-ordered programs for the executors. *)
From Coq Require Import ZifyBool ZifyNat.
From Verif Require Import Base Lib Lib2 Spec SpecSolve M_SpTRSV L_SpTRSV.

(** ** Schedules *)
Section Sch.
Variables (n : nat) (E : nat -> nat -> Prop) (no : nat) (clp cpp cnp : list nat).
Hypothesis VS : valid_schedule n E no clp cpp cnp.

Lemma sch_clp_le l : l <= no -> clp.[l] <= clp.[no].
Proof. destruct VS as ((_ & _ & M & _) & _). intros Hl. apply (mono_le (aget clp) no); auto. Qed.

Lemma sch_cpp_le p : p <= clp.[no] -> cpp.[p] <= n.
Proof. destruct VS as ((_ & _ & _ & _ & _ & M & <- & _) & _). intros Hp. apply (mono_le (aget cpp) clp.[no]); auto. Qed.

Lemma sch_bounds l p k x : l < no -> sched_at clp cpp cnp l p k x -> p < clp.[no] /\ k < n /\ x < n.
Proof.
  intros Hl (H1 & H2 & <-). pose proof (sch_clp_le (S l) ltac:(lia)) as Hc.
  pose proof (sch_cpp_le (S p) ltac:(lia)) as Hp. splits; try lia. destruct VS as (_ & (C & _) & _). apply C. lia.
Qed.

Lemma sch_exists x : x < n -> exists l p k, l < no /\ sched_at clp cpp cnp l p k x.
Proof.
  intros Hx. destruct VS as ((S1 & S2 & S3 & S4 & S5 & S6 & S7 & S8) & (C1 & C2) & _).
  destruct (inj_onto n (aget cnp) C1 C2 x Hx) as (k & Hk & Ek).
  destruct (bucket_exists (aget cpp) clp.[no] k) as (p & Hp & Hkp); try lia.
  destruct (bucket_exists (aget clp) no p) as (l & Hl & Hpl); try lia.
  exists l, p, k. split; auto. unfold sched_at. auto.
Qed.

Lemma sch_unique x l p k l' p' k' : l < no -> l' < no ->
  sched_at clp cpp cnp l p k x -> sched_at clp cpp cnp l' p' k' x -> l = l' /\ p = p' /\ k = k'.
Proof.
  intros Hl Hl' H H'. pose proof (sch_bounds _ _ _ _ Hl H) as (B1 & B2 & _). pose proof (sch_bounds _ _ _ _ Hl' H') as (B1' & B2' & _).
  destruct H as (A1 & A2 & A3), H' as (A1' & A2' & A3').
  destruct VS as ((S1 & S2 & S3 & S4 & S5 & S6 & S7 & S8) & (C1 & C2) & _).
  assert (k = k') as <- by (apply C2; auto; congruence).
  assert (p = p') as <- by (eapply (bucket_unique (aget cpp) clp.[no] p p' k); eauto).
  split; auto. eapply (bucket_unique (aget clp) no l l' p); eauto.
Qed.

End Sch.

Lemma valid_schedule_mono n (E E' : nat -> nat -> Prop) no clp cpp cnp : (forall u v, E' u v -> E u v) ->
  valid_schedule n E no clp cpp cnp -> valid_schedule n E' no clp cpp cnp.
Proof. intros HE (H1 & H2 & H3). split; [auto|split; auto]. intros u v lu pu ku lv pv kv He. apply H3. auto. Qed.

(** every node its own part *)
Lemma level_parts n (E : nat -> nat -> Prop) k lp ls :
  level_partition n k lp ls -> level_ordered E k lp ls -> k < length lp -> n <= length ls ->
  valid_schedule n E k lp (seq 0 (S n)) ls.
Proof.
  intros (P0 & Pm & Pk & Pb & Pi) O L1 L2.
  assert (G : forall i, i <= n -> (seq 0 (S n)).[i] = i) by (intros i Hi; unfold aget; rewrite seq_nth; lia).
  unfold valid_schedule, sched_wf, sched_complete. rewrite seq_length, Pk, !G by lia. splits; auto; try lia.
  - intros p Hp. rewrite !G by lia. lia.
  - intros u v lu pu ku lv pv kv He Hlu Hlv (A1 & A2 & A3) (B1 & B2 & B3).
    assert (Hm : forall l, l < k -> lp.[S l] <= n) by (intros l Hl; rewrite <- Pk; apply (mono_le (aget lp) k); auto; lia).
    pose proof (Hm lu Hlu). pose proof (Hm lv Hlv). rewrite !G in A2, B2 by lia.
    left. apply (O u v); auto; [exists ku|exists kv]; split; auto; lia.
Qed.

(** ** Positions in a concatenation *)
Definition off (L : list (list nat)) (i : nat) : nat := length (concat (firstn i L)).

Lemma firstn_S_aget {A} `{Dflt A} (L : list A) i : i < length L -> firstn (S i) L = firstn i L ++ [L.[i]].
Proof.
  revert i; induction L as [|h t IH]; intros [|i] Hi; simpl in Hi; try lia; [reflexivity|].
  rewrite aget_cons_S. change (firstn (S (S i)) (h :: t)) with (h :: firstn (S i) t). rewrite IH by lia. reflexivity.
Qed.

Lemma off_S L i : i < length L -> off L (S i) = off L i + length L.[i].
Proof.
  intros Hi. unfold off. rewrite firstn_S_aget by auto. rewrite concat_app, app_length. simpl. now rewrite app_nil_r.
Qed.

Lemma off_all L : off L (length L) = length (concat L).
Proof. unfold off. now rewrite firstn_all. Qed.

Lemma concat_aget L i r : i < length L -> r < length L.[i] -> (concat L).[off L i + r] = L.[i].[r].
Proof.
  revert i; induction L as [|h t IH]; intros [|i] Hi Hr; simpl in *; try lia.
  - rewrite aget_cons_0 in *. now rewrite aget_app1.
  - rewrite aget_cons_S in *. unfold off in *. simpl. rewrite app_length. rewrite aget_app2 by lia.
    rewrite <- IH by (auto; lia). f_equal. lia.
Qed.

Lemma concat_pos L q : q < length (concat L) ->
  exists i r, i < length L /\ r < length L.[i] /\ q = off L i + r /\ (concat L).[q] = L.[i].[r].
Proof.
  intros Hq. destruct (bucket_exists (off L) (length L) q) as (i & Hi & Hb).
  - unfold off. simpl. lia.
  - now rewrite off_all.
  - rewrite off_S in Hb by auto. exists i, (q - off L i). splits; auto; try lia.
    rewrite <- concat_aget by lia. f_equal. lia.
Qed.

Lemma off_lex L i r i' r' : i < length L -> i' < length L -> r < length L.[i] -> r' < length L.[i'] ->
  i < i' \/ (i = i' /\ r < r') -> off L i + r < off L i' + r'.
Proof.
  intros Hi Hi' Hr Hr' [H|[-> H]]; [|lia].
  assert (G : off L (S i) <= off L i').
  { apply (mono_le (off L) (length L)); [|lia|lia]. intros k Hk. rewrite off_S by auto. lia. }
  rewrite off_S in G by auto. lia.
Qed.

(** ** Program of a schedule of groups *)
Definition sched_rows (G : nat -> list nat) (cpp cnp : list nat) (p : nat) : list nat :=
  concat (map G (slice cnp cpp.[p] cpp.[S p])).

Definition sched_prog (G : nat -> list nat) (no : nat) (clp cpp cnp : list nat) : prog :=
  map (fun l => map (sched_rows G cpp cnp) (seq clp.[l] (clp.[S l] - clp.[l]))) (seq 0 no).

Lemma group_le n ng gp gs g : group_partition n ng gp gs -> g < ng -> gp.[g] <= gp.[S g] /\ gp.[S g] <= n.
Proof. intros (_ & M & <- & _) Hg. split; auto. apply (mono_le (aget gp) ng); auto. Qed.

Section Groups.
Variables (n ng : nat) (E : nat -> nat -> Prop) (gp gs : list nat) (no : nat) (clp cpp cnp : list nat).
Hypothesis EB : forall u v, E u v -> u < n /\ v < n.
Hypothesis GP : group_partition n ng gp gs.
Hypothesis GO : group_ordered E ng gp gs.
Hypothesis GL : n <= length gs.
Hypothesis VS : valid_schedule ng (quotient E ng gp gs) no clp cpp cnp.

Let G (g : nat) : list nat := slice gs gp.[g] gp.[S g].

Lemma grp_le g : g < ng -> gp.[g] <= gp.[S g] /\ gp.[S g] <= n.
Proof. intros Hg. exact (group_le n ng gp gs g GP Hg). Qed.

Lemma grp_len g : g < ng -> length (G g) = gp.[S g] - gp.[g].
Proof. intros Hg. destruct (grp_le g Hg). unfold G. rewrite slice_length; lia. Qed.

Lemma grp_get g r : g < ng -> r < gp.[S g] - gp.[g] -> (G g).[r] = gs.[gp.[g] + r].
Proof. intros Hg Hr. unfold G. now rewrite aget_slice. Qed.

Lemma rows_len p : p < clp.[no] -> length (slice cnp cpp.[p] cpp.[S p]) = cpp.[S p] - cpp.[p].
Proof.
  intros Hp. destruct VS as ((S1 & S2 & S3 & S4 & S5 & S6 & S7 & S8) & _). pose proof (sch_cpp_le _ _ _ _ _ _ VS (S p) Hp).
  specialize (S6 p Hp). rewrite slice_length; lia.
Qed.

(** position [q] of iteration [t] of level [l]: entry [r] of the group at position [k] of part [p] *)
Lemma pat_sched l t q v :
  pat (sched_prog G no clp cpp cnp) l t q v <->
  exists k g r, l < no /\ let p := clp.[l] + t in sched_at clp cpp cnp l p k g /\
    r < gp.[S g] - gp.[g] /\ v = gs.[gp.[g] + r] /\
    q = off (map G (slice cnp cpp.[p] cpp.[S p])) (k - cpp.[p]) + r.
Proof.
  assert (Hlen : length (sched_prog G no clp cpp cnp) = no) by (unfold sched_prog; now rewrite map_length, seq_length).
  assert (HL : forall l, l < no -> (sched_prog G no clp cpp cnp).[l] = map (sched_rows G cpp cnp) (seq clp.[l] (clp.[S l] - clp.[l]))).
  { intros l0 Hl0. unfold sched_prog. rewrite aget_map_seq; auto. }
  assert (HT : forall l t, l < no -> t < clp.[S l] - clp.[l] ->
     (sched_prog G no clp cpp cnp).[l].[t] = sched_rows G cpp cnp (clp.[l] + t)).
  { intros l0 t0 Hl0 Ht0. rewrite HL by auto. rewrite aget_map by (rewrite seq_length; lia). now rewrite aget_seq. }
  assert (HG : forall p k, p < clp.[no] -> cpp.[p] <= k < cpp.[S p] ->
     (map G (slice cnp cpp.[p] cpp.[S p])).[k - cpp.[p]] = G cnp.[k] /\ cnp.[k] < ng).
  { intros p k Hp Hk. rewrite aget_map by (rewrite rows_len; auto; lia). rewrite aget_slice by lia.
    replace (cpp.[p] + (k - cpp.[p])) with k by lia. split; auto.
    pose proof (sch_cpp_le _ _ _ _ _ _ VS (S p) Hp). destruct VS as (_ & (C & _) & _). apply C. lia. }
  unfold pat. rewrite Hlen. split.
  - intros (Hl & Ht & Hq & Hv). rewrite HL in Ht by auto. rewrite map_length, seq_length in Ht. rewrite HT in Hq, Hv by auto.
    pose proof (sch_clp_le _ _ _ _ _ _ VS (S l) ltac:(lia)) as Hc.
    set (p := clp.[l] + t) in *. unfold sched_rows in *.
    destruct (concat_pos _ _ Hq) as (i & r & Hi & Hr & -> & Er). rewrite map_length, rows_len in Hi by lia.
    destruct (HG p (cpp.[p] + i) ltac:(lia) ltac:(lia)) as [HG1 HG2].
    replace (cpp.[p] + i - cpp.[p]) with i in HG1 by lia.
    rewrite HG1, grp_len in Hr by auto. exists (cpp.[p] + i), cnp.[cpp.[p] + i], r. split; auto.
    unfold sched_at. replace (cpp.[p] + i - cpp.[p]) with i by lia. splits; auto; try lia.
    rewrite <- Hv, Er, HG1. now apply grp_get.
  - intros (k & g & r & Hl & HS & Hr & -> & ->). set (p := clp.[l] + t) in *.
    destruct (sch_bounds _ _ _ _ _ _ VS l p k g Hl HS) as (B1 & B2 & B3). destruct HS as (A1 & A2 & A3).
    destruct (HG p k B1 A2) as [HG1 HG2].
    assert (Hik : k - cpp.[p] < length (map G (slice cnp cpp.[p] cpp.[S p]))) by (rewrite map_length, rows_len; lia).
    assert (Hrr : r < length (map G (slice cnp cpp.[p] cpp.[S p])).[k - cpp.[p]]) by (rewrite HG1, A3, grp_len; auto).
    splits; auto.
    + rewrite HL by auto. rewrite map_length, seq_length. lia.
    + rewrite HT by (auto; lia). fold p. unfold sched_rows. rewrite <- off_all.
      pose proof (off_S _ _ Hik) as Ho.
      assert (off (map G (slice cnp cpp.[p] cpp.[S p])) (S (k - cpp.[p])) <= off (map G (slice cnp cpp.[p] cpp.[S p])) (length (map G (slice cnp cpp.[p] cpp.[S p])))).
      { apply (mono_le (off (map G (slice cnp cpp.[p] cpp.[S p]))) (length (map G (slice cnp cpp.[p] cpp.[S p])))); try lia. intros i Hi. rewrite off_S by auto. lia. }
      lia.
    + rewrite HT by (auto; lia). fold p. unfold sched_rows. rewrite concat_aget by auto. rewrite HG1, A3. now apply grp_get.
Qed.

Lemma grp_of_unique g g' r r' : g < ng -> g' < ng -> r < gp.[S g] - gp.[g] -> r' < gp.[S g'] - gp.[g'] ->
  gs.[gp.[g] + r] = gs.[gp.[g'] + r'] -> g = g' /\ r = r'.
Proof.
  intros Hg Hg' Hr Hr' He. pose proof (grp_le g Hg). pose proof (grp_le g' Hg').
  destruct GP as (P0 & Pm & Pk & Pb & Pi).
  assert (Hk : gp.[g] + r = gp.[g'] + r') by (apply Pi; auto; lia).
  assert (g = g') as <- by (eapply (bucket_unique (aget gp) ng g g' (gp.[g] + r)); eauto; lia).
  split; auto. lia.
Qed.

Lemma prog_ok_groups : prog_ok n E (sched_prog G no clp cpp cnp).
Proof.
  unfold prog_ok. splits.
  - intros l t q v Hp. apply pat_sched in Hp. destruct Hp as (k & g & r & Hl & HS & Hr & -> & _).
    destruct (sch_bounds _ _ _ _ _ _ VS _ _ _ _ Hl HS) as (_ & _ & Hg). pose proof (grp_le g Hg).
    destruct GP as (_ & _ & _ & Pb & _). apply Pb. lia.
  - intros l t q l' t' q' v Hp Hp'. apply pat_sched in Hp, Hp'.
    destruct Hp as (k & g & r & Hl & HS & Hr & Ev & Eq). destruct Hp' as (k' & g' & r' & Hl' & HS' & Hr' & Ev' & Eq').
    destruct (sch_bounds _ _ _ _ _ _ VS _ _ _ _ Hl HS) as (_ & _ & Hg). destruct (sch_bounds _ _ _ _ _ _ VS _ _ _ _ Hl' HS') as (_ & _ & Hg').
    destruct (grp_of_unique g g' r r') as [<- <-]; auto; try congruence.
    destruct (sch_unique _ _ _ _ _ _ VS g _ _ _ _ _ _ Hl Hl' HS HS') as (<- & Ht & <-).
    assert (t = t') as <- by lia. subst. auto.
  - intros v Hv. destruct GP as (P0 & Pm & Pk & Pb & Pi).
    destruct (inj_onto n (aget gs) Pb Pi v Hv) as (j & Hj & Ej).
    destruct (bucket_exists (aget gp) ng j) as (g & Hg & Hgj); try lia.
    destruct (sch_exists _ _ _ _ _ _ VS g Hg) as (l & p & k & Hl & HS).
    exists l, (p - clp.[l]), (off (map G (slice cnp cpp.[p] cpp.[S p])) (k - cpp.[p]) + (j - gp.[g])).
    apply pat_sched. exists k, g, (j - gp.[g]). split; auto.
    replace (clp.[l] + (p - clp.[l])) with p by (destruct HS; lia). cbv zeta. splits; auto; try lia.
    rewrite <- Ej. f_equal. lia.
  - intros u v l t q l' t' q' He Hp Hp'. apply pat_sched in Hp, Hp'.
    destruct Hp as (k & g & r & Hl & HS & Hr & Ev & Eq). destruct Hp' as (k' & g' & r' & Hl' & HS' & Hr' & Ev' & Eq').
    destruct (sch_bounds _ _ _ _ _ _ VS _ _ _ _ Hl HS) as (Hb1 & Hb2 & Hg). destruct (sch_bounds _ _ _ _ _ _ VS _ _ _ _ Hl' HS') as (Hb1' & Hb2' & Hg').
    assert (Hlex : forall p k k' g g' r r', p < clp.[no] -> cpp.[p] <= k < cpp.[S p] -> cpp.[p] <= k' < cpp.[S p] ->
       cnp.[k] = g -> cnp.[k'] = g' -> g < ng -> g' < ng -> r < gp.[S g] - gp.[g] -> r' < gp.[S g'] - gp.[g'] ->
       k < k' \/ (k = k' /\ r < r') ->
       off (map G (slice cnp cpp.[p] cpp.[S p])) (k - cpp.[p]) + r < off (map G (slice cnp cpp.[p] cpp.[S p])) (k' - cpp.[p]) + r').
    { intros p a a' h h' s s' Hpp Ha Ha' Eh Eh' Hh Hh' Hs Hs' Ho.
      apply off_lex; rewrite ?map_length, ?rows_len by auto; try lia.
      - rewrite aget_map by (rewrite rows_len; auto; lia). rewrite aget_slice by lia. replace (cpp.[p] + (a - cpp.[p])) with a by lia.
        rewrite Eh, grp_len; auto.
      - rewrite aget_map by (rewrite rows_len; auto; lia). rewrite aget_slice by lia. replace (cpp.[p] + (a' - cpp.[p])) with a' by lia.
        rewrite Eh', grp_len; auto. }
    pose proof (grp_le g Hg). pose proof (grp_le g' Hg').
    destruct (Nat.eq_dec g g') as [<-|Hne].
    + destruct (sch_unique _ _ _ _ _ _ VS g _ _ _ _ _ _ Hl Hl' HS HS') as (<- & Ht & <-).
      assert (t = t') as <- by lia. right. split; auto. split; auto. subst q q'.
      destruct HS as (A1 & A2 & A3). apply (Hlex _ k k g g); auto. right. split; auto.
      subst u v. pose proof (GO g (gp.[g] + r) (gp.[g] + r') Hg ltac:(lia) ltac:(lia) He). lia.
    + assert (HQ : quotient E ng gp gs g g').
      { unfold quotient. splits; auto. exists u, v. splits; auto.
        - exists (gp.[g] + r). split; [lia|auto].
        - exists (gp.[g'] + r'). split; [lia|auto]. }
      destruct VS as (_ & _ & SO). destruct (SO _ _ _ _ _ _ _ _ HQ Hl Hl' HS HS') as [?|(<- & Ht & Hk)]; [now left|].
      assert (t = t') as <- by lia. right. split; auto. split; auto. subst q q'.
      destruct HS as (A1 & A2 & A3), HS' as (A1' & A2' & A3'). apply (Hlex _ k k' g g'); auto.
Qed.

End Groups.

(** ** The trivial grouping *)
Lemma seq_aget a m i : i < m -> (seq a m).[i] = a + i.
Proof. intros. unfold aget. now rewrite seq_nth. Qed.

Lemma id_partition n : group_partition n n (seq 0 (S n)) (seq 0 n).
Proof.
  unfold group_partition, level_partition. rewrite !seq_aget by lia. splits; auto; try lia.
  - intros l Hl. rewrite !seq_aget by lia. lia.
  - intros i Hi. rewrite seq_aget; lia.
  - intros i j Hi Hj. rewrite !seq_aget by lia. lia.
Qed.

Lemma id_in_level n g u : g < n -> in_level (seq 0 (S n)) (seq 0 n) g u -> u = g.
Proof. intros Hg (k & Hk & Eu). rewrite !seq_aget in Hk by lia. rewrite seq_aget in Eu by lia. lia. Qed.

Lemma id_quotient n E u v : quotient E n (seq 0 (S n)) (seq 0 n) u v -> E u v.
Proof.
  intros (Hu & Hv & _ & a & c & Ha & Hc & He). apply id_in_level in Ha, Hc; auto. now subst.
Qed.

Lemma id_ordered n (E : nat -> nat -> Prop) : (forall u, ~ E u u) -> group_ordered E n (seq 0 (S n)) (seq 0 n).
Proof.
  intros HI g k k' Hg Hk Hk' He. rewrite !seq_aget in Hk, Hk' by lia. rewrite !seq_aget in He by lia.
  assert (k = k') as <- by lia. exfalso. eapply HI; eauto.
Qed.

Lemma prog_ok_nodes n (E : nat -> nat -> Prop) no clp cpp cnp : (forall u v, E u v -> u < n /\ v < n) -> (forall u, ~ E u u) ->
  valid_schedule n E no clp cpp cnp -> prog_ok n E (sched_prog (fun v => [v]) no clp cpp cnp).
Proof.
  intros EB HI VS.
  assert (G := prog_ok_groups n n E (seq 0 (S n)) (seq 0 n) no clp cpp cnp EB (id_partition n) (id_ordered n E HI)
     ltac:(rewrite seq_length; auto) (valid_schedule_mono _ _ _ _ _ _ _ (id_quotient n E) VS)).
  replace (sched_prog (fun v => [v]) no clp cpp cnp) with (sched_prog (fun g => slice (seq 0 n) (seq 0 (S n)).[g] (seq 0 (S n)).[S g]) no clp cpp cnp); auto.
  unfold sched_prog. apply map_ext_in. intros l Hl. apply in_seq in Hl. apply map_ext_in. intros p Hp. apply in_seq in Hp.
  unfold sched_rows. f_equal. apply map_ext_in. intros v Hv.
  pose proof (sch_clp_le _ _ _ _ _ _ VS (S l) ltac:(lia)) as Hc.
  pose proof (sch_cpp_le _ _ _ _ _ _ VS (S p) ltac:(lia)) as Hcp.
  destruct VS as ((S1 & S2 & S3 & S4 & S5 & S6 & S7 & S8) & (C1 & C2) & _).
  apply In_slice in Hv; [|apply S6; lia|lia]. destruct Hv as (k & Hk & <-). specialize (C1 k ltac:(lia)).
  rewrite !seq_aget by lia. apply list_ext; [rewrite slice_length; rewrite ?seq_length; cbn [length]; lia|].
  intros i Hi. rewrite slice_length in Hi by (rewrite ?seq_length; lia). rewrite aget_slice by lia. rewrite seq_aget by lia.
  assert (i = 0) as -> by lia. unfold aget. simpl. lia.
Qed.

(** ** The models' loops build these programs *)
Lemma level_prog_wp (rows : nat -> res (list nat)) (R : nat -> list nat) no clp (Q : prog -> Prop) :
  no < length clp -> (forall l, l < no -> clp.[l] <= clp.[S l]) ->
  (forall p, p < clp.[no] -> rows p = Ok (R p)) ->
  Q (map (fun l => map R (seq clp.[l] (clp.[S l] - clp.[l]))) (seq 0 no)) ->
  wp (level_prog rows no clp) Q.
Proof.
  intros HL HM HR HQ. unfold level_prog.
  apply wp_for with (I := fun m acc => acc = map (fun l => map R (seq clp.[l] (clp.[S l] - clp.[l]))) (seq 0 m)).
  - lia.
  - reflexivity.
  - intros m acc Hm ->. wp1. apply wp_rd; [lia|]. wp1. apply wp_rd; [lia|]. apply wp_bind.
    assert (Hle : clp.[S m] <= clp.[no]) by (apply (mono_le (aget clp) no); auto; lia).
    specialize (HM m ltac:(lia)).
    apply wp_for with (I := fun k its => its = map R (seq clp.[m] (k - clp.[m]))).
    + lia.
    + now rewrite Nat.sub_diag.
    + intros k its Hk ->. rewrite HR by lia. cbn [bind wp]. replace (S k - clp.[m]) with (S (k - clp.[m])) by lia.
      rewrite seq_S, map_app. simpl. now replace (clp.[m] + (k - clp.[m])) with k by lia.
    + intros its ->. replace (max clp.[m] clp.[S m]) with clp.[S m] by lia. apply wp_ret.
      now rewrite seq_S, map_app.
  - intros P ->. replace (max 0 no) with no by lia. auto.
Qed.

Lemma append_loop_wp (l : list nat) a c acc (Q : list nat -> Prop) : a <= c -> c <= length l ->
  Q (acc ++ slice l a c) -> wp (for_ a c (fun k acc => i <- rd l k ;; Ok (acc ++ [i])) acc) Q.
Proof.
  intros Hac Hc HQ. apply wp_for with (I := fun k s => s = acc ++ slice l a k).
  - lia.
  - rewrite slice_nil by lia. now rewrite app_nil_r.
  - intros k s Hk ->. wp1. apply wp_rd; [lia|]. apply wp_ret. rewrite <- app_assoc. f_equal.
    rewrite (slice_app l a k (S k)) by lia. f_equal.
    apply list_ext; [rewrite slice_length; cbn [length]; lia|]. intros i Hi. simpl in Hi. assert (i = 0) as -> by lia.
    rewrite aget_slice by lia. now rewrite Nat.add_0_r.
  - intros s ->. replace (max a c) with c by lia. auto.
Qed.

Lemma group_loop_wp (gp gs cnp : list nat) ng a c acc (Q : list nat -> Prop) : a <= c -> c <= length cnp ->
  (forall k, a <= k < c -> cnp.[k] < ng) ->
  ng < length gp -> (forall g, g < ng -> gp.[g] <= gp.[S g] /\ gp.[S g] <= length gs) ->
  Q (acc ++ concat (map (fun g => slice gs gp.[g] gp.[S g]) (slice cnp a c))) ->
  wp (for_ a c (fun k1 acc =>
      p <- rd cnp k1 ;; g <- rd gp p ;; h <- rd gp (S p) ;;
      for_ g h (fun k acc => i <- rd gs k ;; Ok (acc ++ [i])) acc) acc) Q.
Proof.
  intros Hac Hc Hb HG HM HQ.
  apply wp_for with (I := fun k s => s = acc ++ concat (map (fun g => slice gs gp.[g] gp.[S g]) (slice cnp a k))).
  - lia.
  - rewrite slice_nil by lia. simpl. now rewrite app_nil_r.
  - intros k s Hk ->. specialize (Hb k ltac:(lia)). destruct (HM _ Hb) as [M1 M2].
    wp1. apply wp_rd; [lia|]. wp1. apply wp_rd; [lia|]. wp1. apply wp_rd; [lia|].
    apply append_loop_wp; auto. rewrite <- app_assoc. f_equal.
    rewrite (slice_app cnp a k (S k)) by lia. rewrite map_app, concat_app. f_equal.
    replace (slice cnp k (S k)) with [cnp.[k]]; [simpl; now rewrite app_nil_r|].
    apply list_ext; [rewrite slice_length; cbn [length]; lia|]. intros i Hi. simpl in Hi. assert (i = 0) as -> by lia.
    rewrite aget_slice by lia. now rewrite Nat.add_0_r.
  - intros s ->. replace (max a c) with c by lia. auto.
Qed.

Lemma lbc_prog_ok n E no clp cpp cnp : valid_schedule n E no clp cpp cnp ->
  lbc_prog no clp cpp cnp = Ok (sched_prog (fun v => [v]) no clp cpp cnp).
Proof.
  intros VS. destruct VS as ((S1 & S2 & S3 & S4 & S5 & S6 & S7 & S8) & (C1 & C2) & SO).
  assert (G : wp (lbc_prog no clp cpp cnp) (eq (sched_prog (fun v => [v]) no clp cpp cnp))).
  { apply (level_prog_wp _ (sched_rows (fun v => [v]) cpp cnp)); auto.
    intros p Hp. assert (Hc : cpp.[S p] <= n) by (rewrite <- S7; apply (mono_le (aget cpp) clp.[no]); auto; lia).
    rewrite !rd_ok by lia. simpl. specialize (S6 p Hp).
    assert (H : wp (for_ cpp.[p] cpp.[S p] (fun k1 acc => i <- rd cnp k1 ;; Ok (acc ++ [i])) [])
       (eq (sched_rows (fun v => [v]) cpp cnp p))).
    { apply append_loop_wp; [lia|lia|]. unfold sched_rows. simpl. induction (slice cnp cpp.[p] cpp.[S p]); simpl; congruence. }
    apply wp_ok in H. destruct H as (r & -> & ->). reflexivity. }
  apply wp_ok in G. destruct G as (P & -> & ->). reflexivity.
Qed.

Lemma group_lbc_prog_ok n ng E no clp cpp cnp gp gs : valid_schedule ng E no clp cpp cnp ->
  group_partition n ng gp gs -> ng < length gp -> n <= length gs ->
  group_lbc_prog no clp cpp cnp gp gs = Ok (sched_prog (fun g => slice gs gp.[g] gp.[S g]) no clp cpp cnp).
Proof.
  intros VS GP HG HS. destruct VS as ((S1 & S2 & S3 & S4 & S5 & S6 & S7 & S8) & (C1 & C2) & SO).
  assert (G : wp (group_lbc_prog no clp cpp cnp gp gs) (eq (sched_prog (fun g => slice gs gp.[g] gp.[S g]) no clp cpp cnp))).
  { apply (level_prog_wp _ (sched_rows (fun g => slice gs gp.[g] gp.[S g]) cpp cnp)); auto.
    intros p Hp. assert (Hc : cpp.[S p] <= ng) by (rewrite <- S7; apply (mono_le (aget cpp) clp.[no]); auto; lia).
    rewrite !rd_ok by lia. simpl. specialize (S6 p Hp).
    match goal with |- ?m = _ => assert (H : wp m (eq (sched_rows (fun g => slice gs gp.[g] gp.[S g]) cpp cnp p))) end.
    { apply (group_loop_wp gp gs cnp ng); try lia.
      - intros k Hk. apply C1. lia.
      - intros g Hg. destruct (group_le n ng gp gs g GP Hg). lia.
      - reflexivity. }
    apply wp_ok in H. destruct H as (r & -> & ->). reflexivity. }
  apply wp_ok in G. destruct G as (P & -> & ->). reflexivity.
Qed.

Lemma levelset_prog_ok n k lp ls : level_partition n k lp ls -> k < length lp -> n <= length ls ->
  levelset_prog k lp ls = Ok (sched_prog (fun v => [v]) k lp (seq 0 (S n)) ls).
Proof.
  intros (P0 & Pm & Pk & Pb & Pi) L1 L2.
  assert (G : wp (levelset_prog k lp ls) (eq (sched_prog (fun v => [v]) k lp (seq 0 (S n)) ls))).
  { apply (level_prog_wp _ (sched_rows (fun v => [v]) (seq 0 (S n)) ls)); auto.
    intros p Hp. rewrite Pk in Hp. rewrite rd_ok by lia. cbn [bind]. unfold sched_rows. rewrite !seq_aget by lia. do 2 f_equal.
    replace (slice ls (0 + p) (0 + S p)) with [ls.[p]]; [reflexivity|].
    apply list_ext; [rewrite slice_length; cbn [length]; lia|]. intros i Hi. simpl in Hi. assert (i = 0) as -> by lia.
    rewrite aget_slice by lia. now rewrite Nat.add_0_r. }
  apply wp_ok in G. destruct G as (P & -> & ->). reflexivity.
Qed.

Lemma group_levelset_prog_ok n ng k lp ls gp gs : level_partition ng k lp ls -> k < length lp -> ng <= length ls ->
  group_partition n ng gp gs -> ng < length gp -> n <= length gs ->
  group_levelset_prog k lp ls gp gs = Ok (sched_prog (fun g => slice gs gp.[g] gp.[S g]) k lp (seq 0 (S ng)) ls).
Proof.
  intros (P0 & Pm & Pk & Pb & Pi) L1 L2 GP HG HS.
  assert (G : wp (group_levelset_prog k lp ls gp gs) (eq (sched_prog (fun g => slice gs gp.[g] gp.[S g]) k lp (seq 0 (S ng)) ls))).
  { apply (level_prog_wp _ (sched_rows (fun g => slice gs gp.[g] gp.[S g]) (seq 0 (S ng)) ls)); auto.
    intros p Hp. rewrite Pk in Hp. specialize (Pb p Hp). rewrite rd_ok by lia. cbn [bind].
    destruct (group_le n ng gp gs _ GP Pb) as [M1 M2]. rewrite !rd_ok by lia. cbn [bind].
    match goal with |- ?m = _ => assert (H : wp m (eq (sched_rows (fun g => slice gs gp.[g] gp.[S g]) (seq 0 (S ng)) ls p))) end.
    { apply append_loop_wp; [lia|lia|]. unfold sched_rows. rewrite !seq_aget by lia.
      replace (slice ls (0 + p) (0 + S p)) with [ls.[p]]; [simpl; now rewrite app_nil_r|].
      apply list_ext; [rewrite slice_length; cbn [length]; lia|]. intros i Hi. simpl in Hi. assert (i = 0) as -> by lia.
      rewrite aget_slice by lia. now rewrite Nat.add_0_r. }
    apply wp_ok in H. destruct H as (r & -> & ->). reflexivity. }
  apply wp_ok in G. destruct G as (P & -> & ->). reflexivity.
Qed.
