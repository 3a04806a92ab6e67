(** C109, C110: Group_DAG and detectDAGCircle of src/group_utils.cpp. *)
From Verif Require Import Base Lib Lib2 Spec Check CheckS SpecSolve M_Conv.
From Coq Require Import ZifyBool ZifyNat Permutation.

(** a graph stored as lists of successors, all of them nodes *)
Definition adj_wf (DAG : list (list nat)) : Prop := forall u v, u < length DAG -> In v DAG.[u] -> v < length DAG.
Definition adj (DAG : list (list nat)) (u v : nat) : Prop := u < length DAG /\ In v DAG.[u].

(** * C109 *)

(** the graph of the groups: one sorted duplicate-free list per group, with an edge exactly
    where a node of one group has a successor in another *)
Theorem C109_group_dag :
  forall DAG ng gp gs inv, let n := length DAG in
  adj_wf DAG -> group_partition n ng gp gs -> ng < length gp -> n <= length gs ->
  n <= length inv -> (forall g x, g < ng -> in_level gp gs g x -> inv.[x] = g) ->
  exists gD, Group_DAG DAG gp gs inv ng = Ok gD /\ length gD = ng /\
    forall g, g < ng -> sorted_lt gD.[g] /\ forall h, In h gD.[g] <-> quotient (adj DAG) ng gp gs g h.
Proof.
  intros DAG ng gp gs inv n AW GP LG LS LI HI. pose proof GP as (G1 & G2 & G3 & G4 & G5).
  assert (HG : forall g, g < ng -> gp.[g] <= gp.[S g] /\ gp.[S g] <= n).
  { intros g Hg. split; auto. rewrite <- G3. apply (mono_le (aget gp) ng); auto. }
  assert (INV : forall x, x < n -> exists g, g < ng /\ in_level gp gs g x /\ inv.[x] = g).
  { intros x Hx.
    destruct (inj_onto n (aget gs) G4 G5 x Hx) as (k & Hk & Ek).
    destruct (bucket_exists (aget gp) ng k) as (g & Hg & Hkg); [rewrite G1; lia|rewrite G3; lia|].
    exists g. assert (L : in_level gp gs g x) by (exists k; auto). splits; auto. }
  assert (G : wp (Group_DAG DAG gp gs inv ng) (fun gD => length gD = ng /\
    forall g, g < ng -> sorted_lt gD.[g] /\ forall h, In h gD.[g] <-> quotient (adj DAG) ng gp gs g h)).
  { unfold Group_DAG. apply wp_for with (I := fun m gD => length gD = m /\
      forall g, g < m -> sorted_lt gD.[g] /\ forall h, In h gD.[g] <-> quotient (adj DAG) ng gp gs g h); [lia| | |auto].
    - split; auto. intros; lia.
    - intros g gD Hg (I1 & I2). destruct (HG g ltac:(lia)). wp1. wp1; [lia|]. wp1. wp1; [lia|]. wp1.
      apply wp_for with (I := fun k t => forall h, In h t <-> exists q v, gp.[g] <= q < k /\ In v DAG.[gs.[q]] /\ inv.[v] = h /\ h <> g); [lia| | |].
      + intros h. split; [intros []|]. intros (q & v & ? & _). lia.
      + intros k t Hk IT. pose proof (G4 k ltac:(lia)) as Hx. wp1. wp1; [lia|]. wp1. wp1; [fold n; lia|].
        apply (wp_foreach (fun pre t => forall h, In h t <-> (exists q v, gp.[g] <= q < k /\ In v DAG.[gs.[q]] /\ inv.[v] = h /\ h <> g)
           \/ (exists v, In v pre /\ inv.[v] = h /\ h <> g))).
        * intros h. rewrite IT. split; [auto|]. intros [|(v & [] & _)]; auto.
        * intros pre y post t' E IT'. assert (Hy : y < n) by (apply (AW gs.[k]); auto; rewrite E; apply in_or_app; right; now left).
          wp1. wp1; [lia|]. wp1. intros h. destruct (Nat.eqb_spec inv.[y] g) as [Eg|Ng].
          -- rewrite IT'. split; (intros [|(v & Hv & Ev & Nv)]; [now left|right]).
             ++ exists v. splits; auto. apply in_or_app. now left.
             ++ apply in_app_or in Hv. destruct Hv as [Hv|[<-|[]]]; [eauto|congruence].
          -- rewrite in_app_iff, IT'. split.
             ++ intros [[?|(v & Hv & Ev & Nv)]|[<-|[]]]; [now left| |].
                ** right. exists v. splits; auto. apply in_or_app. now left.
                ** right. exists y. splits; auto. apply in_or_app. right. now left.
             ++ intros [?|(v & Hv & Ev & Nv)]; [left; now left|]. apply in_app_or in Hv. destruct Hv as [Hv|[<-|[]]].
                ** left. right. eauto.
                ** right. now left.
        * intros t' IT' h. rewrite IT'. split.
          -- intros [(q & v & Hq & Hv)|(v & Hv)]; [exists q, v; split; [lia|auto]|exists k, v; split; [lia|auto]].
          -- intros (q & v & Hq & Hv). destruct (Nat.eq_dec q k) as [->|]; [right; eauto|left; exists q, v; split; [lia|auto]].
      + intros t IT. wp1. split; [rewrite app_length; simpl; lia|]. intros g' Hg'.
        destruct (Nat.eq_dec g' g) as [->|]; [|rewrite aget_app1 by lia; apply I2; lia].
        rewrite <- I1, aget_app_last. split; [apply uniq_sorted, isort_sorted|]. intros h. rewrite uniq_In, isort_In, IT. rewrite I1. split.
        * intros (q & v & Hq & Hv & Eh & Nh). pose proof (G4 q ltac:(lia)). assert (Hvn : v < n) by (eapply AW; eauto; fold n; lia).
          destruct (INV v Hvn) as (h' & Hh' & L & E'). assert (h' = h) as -> by congruence.
          split; [lia|]. split; [lia|]. split; [congruence|].
          exists gs.[q], v. split; [exists q; auto|]. split; [auto|]. split; [fold n; lia|auto].
        * intros (_ & Hh & Nh & u & v & (q & Hq & Eq) & Lv & (Hu & Huv)). exists q, v. rewrite Eq. splits; auto; lia. }
  apply wp_ok in G. destruct G as (gD & E & G). exists gD. split; auto.
Qed.
Print Assumptions C109_group_dag.

Example C109_case : let DAG := [[2;3];[3];[3;4];[4;5];[5];[]] in
  adj_wf DAG /\ group_partition 6 3 [0;2;4;6] [0;2;1;3;4;5] /\
  (forall g x, g < 3 -> in_level [0;2;4;6] [0;2;1;3;4;5] g x -> [0;1;0;1;2;2].[x] = g) /\
  Group_DAG DAG [0;2;4;6] [0;2;1;3;4;5] [0;1;0;1;2;2] 3 = Ok [[1;2];[2];[]].
Proof.
  cbv zeta. split; [|split; [|split]].
  - intros u v Hu Hv. do 6 (destruct u as [|u]; [vm_compute in Hv |- *; lia|]). vm_compute in Hu. lia.
  - apply level_partitionb_ok. vm_compute. reflexivity.
  - intros g x Hg (k & Hk & <-). do 3 (destruct g as [|g]; [do 6 (destruct k as [|k]; [vm_compute in *; lia|]); vm_compute in Hk; lia|]). lia.
  - vm_compute. reflexivity.
Qed.

(** * C110 *)

(** exactly the pairs of nodes with edges both ways are reported *)
Theorem C110_two_cycles_reported :
  forall DAG, adj_wf DAG -> exists out, detectDAGCircle DAG = Ok out /\
    (forall u v, In (u, v) out <-> adj DAG u v /\ adj DAG v u) /\
    (out = [] <-> forall u v, adj DAG u v -> ~ adj DAG v u).
Proof.
  intros DAG AW.
  assert (G : wp (detectDAGCircle DAG) (fun out => forall u v, In (u, v) out <-> adj DAG u v /\ adj DAG v u)).
  { unfold detectDAGCircle. apply wp_for with (I := fun m out => forall u v, In (u, v) out <-> u < m /\ adj DAG u v /\ adj DAG v u); [lia| | |].
    - intros u v. split; [intros []|lia].
    - intros i out Hi IO. wp1. wp1; [lia|].
      apply wp_for with (I := fun j out => forall u v, In (u, v) out <-> (u < i /\ adj DAG u v /\ adj DAG v u) \/
         (u = i /\ (exists q, q < j /\ DAG.[i].[q] = v) /\ adj DAG v u)); [lia| | |].
      + intros u v. rewrite IO. split; [auto|]. intros [|(_ & (q & ? & _) & _)]; [auto|lia].
      + intros j out' Hj IO'. assert (Hin : In DAG.[i].[j] DAG.[i]) by (apply aget_In; lia).
        pose proof (AW i DAG.[i].[j] ltac:(lia) Hin) as Ht. wp1. wp1; [lia|]. wp1. wp1; [lia|]. wp1. intros u v.
        assert (EB : existsb (fun w => w =? i) DAG.[DAG.[i].[j]] = true <-> adj DAG DAG.[i].[j] i).
        { rewrite existsb_exists. split.
          - intros (w & Hw & E). apply Nat.eqb_eq in E. subst w. split; auto.
          - intros [_ Hw]. exists i. split; auto. apply Nat.eqb_refl. }
        destruct (existsb _ _) eqn:EX.
        * rewrite in_app_iff, IO'. split.
          -- intros [[?|(-> & (q & Hq & E) & A)]|[E|[]]].
             ++ now left.
             ++ right. splits; auto. exists q. split; [lia|auto].
             ++ injection E as <- <-. right. splits; auto; [|now apply EB]. exists j. split; [lia|auto].
          -- intros [?|(-> & (q & Hq & E) & A)]; [now do 2 left|]. destruct (Nat.eq_dec q j) as [->|].
             ++ right. left. now rewrite E.
             ++ left. right. splits; auto. exists q. split; [lia|auto].
        * rewrite IO'. split.
          -- intros [?|(-> & (q & Hq & E) & A)]; [now left|]. right. splits; auto. exists q. split; [lia|auto].
          -- intros [?|(-> & (q & Hq & E) & A)]; [now left|]. destruct (Nat.eq_dec q j) as [->|].
             ++ exfalso. rewrite E in EB. apply EB in A. discriminate.
             ++ right. splits; auto. exists q. split; [lia|auto].
      + intros out' IO' u v. rewrite IO'. split.
        * intros [(? & A)|(-> & (q & Hq & E) & A)]; [split; [lia|auto]|]. split; [lia|]. split; [|auto]. split; [lia|]. rewrite <- E. apply aget_In. lia.
        * intros (Hu & A1 & A2). destruct (Nat.eq_dec u i) as [->|]; [right|left; splits; auto; lia]. splits; auto.
          destruct A1 as [_ A1]. apply In_aget in A1. destruct A1 as (q & Hq & E). exists q. auto.
    - intros out IO u v. rewrite IO. split; [tauto|]. intros [A1 A2]. splits; auto. apply A1. }
  apply wp_ok in G. destruct G as (out & E & G). exists out. splits; auto. split.
  - intros -> u v A1 A2. apply (G u v). auto.
  - intros HN. destruct out as [|[u v] t]; auto. exfalso. destruct (proj1 (G u v) (or_introl eq_refl)) as [A1 A2]. now apply (HN u v).
Qed.
Print Assumptions C110_two_cycles_reported.

(** [k] nodes in a ring *)
Definition ring (k : nat) : list (list nat) := map (fun i => [if S i =? k then 0 else S i]) (seq 0 k).

Lemma ring_at k i : i < k -> (ring k).[i] = [if S i =? k then 0 else S i].
Proof. intros Hi. unfold ring. now rewrite (aget_map_seq (fun i => [if S i =? k then 0 else S i])). Qed.

(** a ring of three or more nodes is a cycle, and nothing is reported for it *)
Theorem C110_longer_cycles_missed :
  forall k, 3 <= k -> adj_wf (ring k) /\ has_cycle (adj (ring k)) /\ detectDAGCircle (ring k) = Ok [].
Proof.
  intros k Hk. assert (HL : length (ring k) = k) by (unfold ring; now rewrite map_length, seq_length).
  assert (AW : adj_wf (ring k)).
  { intros u v Hu Hv. rewrite HL in *. rewrite ring_at in Hv by auto. destruct Hv as [<-|[]]. destruct (Nat.eqb_spec (S u) k); lia. }
  split; auto. split.
  - exists 0, (k - 1).
    assert (C : forall m, m < k -> chain (adj (ring k)) 0 m m).
    { induction m as [|m IH]; intros Hm; [constructor|]. apply chain_snoc with m; [apply IH; lia|]. split; [lia|].
      rewrite ring_at by lia. left. destruct (Nat.eqb_spec (S m) k); lia. }
    apply chain_snoc with (k - 1); [apply C; lia|]. split; [lia|]. rewrite ring_at by lia. left.
    destruct (Nat.eqb_spec (S (k - 1)) k); lia.
  - destruct (C110_two_cycles_reported (ring k) AW) as (out & -> & _ & HN). f_equal. apply HN.
    intros u v [Hu A1] [Hv A2]. rewrite HL in *. rewrite ring_at in A1, A2 by auto. destruct A1 as [E1|[]]. destruct A2 as [E2|[]].
    destruct (Nat.eqb_spec (S u) k), (Nat.eqb_spec (S v) k); lia.
Qed.
Print Assumptions C110_longer_cycles_missed.

Example C110_case : adj_wf [[1];[2;0];[3];[3]] /\ detectDAGCircle [[1];[2;0];[3];[3]] = Ok [(0,1);(1,0);(3,3)].
Proof.
  split; [|vm_compute; reflexivity].
  intros u v Hu Hv. do 4 (destruct u as [|u]; [vm_compute in Hv |- *; lia|]). vm_compute in Hu. lia.
Qed.
