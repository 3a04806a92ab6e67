(** Spec: what the properties are stated in terms of.  Graphs in compressed
    column form, dependence chains, level sets, schedules.  Independent of the
    models of the code. *)
From Verif Require Export Base Lib.

(** * Graphs stored by columns *)

(** [n] columns; column [u] is [Li.[Lp.[u]], ..., Li.[Lp.[S u] - 1]].  The arrays
    may be longer than needed. *)
Definition wf_csc (n : nat) (Lp Li : list nat) : Prop :=
  n < length Lp /\ Lp.[0] = 0 /\
  (forall i, i < n -> Lp.[i] <= Lp.[S i]) /\
  Lp.[n] <= length Li /\
  (forall k, k < Lp.[n] -> Li.[k] < n).

(** column [u] holds the entry [v] *)
Definition entry (Lp Li : list nat) (u v : nat) : Prop :=
  exists k, Lp.[u] <= k < Lp.[S u] /\ Li.[k] = v.

(** dependence [u -> v]: [v] depends on [u] *)
Definition edge (n : nat) (Lp Li : list nat) (u v : nat) : Prop :=
  u < n /\ entry Lp Li u v /\ u <> v.

(** every column holds its own diagonal exactly once *)
Definition one_diag (n : nat) (Lp Li : list nat) : Prop :=
  forall u, u < n -> exists k, (Lp.[u] <= k < Lp.[S u] /\ Li.[k] = u) /\
    forall k', Lp.[u] <= k' < Lp.[S u] -> Li.[k'] = u -> k' = k.

(** the diagonal is the first entry of each column and occurs only there *)
Definition diag_first (n : nat) (Lp Li : list nat) : Prop :=
  forall u, u < n -> Lp.[u] < Lp.[S u] /\ Li.[Lp.[u]] = u /\
    forall k, Lp.[u] < k < Lp.[S u] -> Li.[k] <> u.

(** all edges go from smaller to larger ids *)
Definition lower_tri (n : nat) (Lp Li : list nat) : Prop :=
  forall u v, edge n Lp Li u v -> u < v.

(** columns are sorted increasingly *)
Definition sorted_cols (n : nat) (Lp Li : list nat) : Prop :=
  forall u k k', u < n -> Lp.[u] <= k -> k < k' -> k' < Lp.[S u] -> Li.[k] < Li.[k'].

(** [chain E u v k]: there is a dependence chain of [k] edges from [u] to [v] *)
Inductive chain (E : nat -> nat -> Prop) : nat -> nat -> nat -> Prop :=
| chain_nil u : chain E u u 0
| chain_snoc u v w k : chain E u v k -> E v w -> chain E u w (S k).

Definition reaches (E : nat -> nat -> Prop) (u v : nat) : Prop := exists k, chain E u v k.

Definition acyclic (E : nat -> nat -> Prop) : Prop := forall u k, ~ chain E u u (S k).

(** the longest dependence chain ending in [v] has [d] edges *)
Definition depth_is (E : nat -> nat -> Prop) (v d : nat) : Prop :=
  (exists u, chain E u v d) /\ (forall u k, chain E u v k -> k <= d).

Definition has_cycle (E : nat -> nat -> Prop) : Prop := exists u k, chain E u u (S k).

(** some dependence chain visits all [n] nodes *)
Definition visits_all (n : nat) (E : nat -> nat -> Prop) : Prop :=
  exists path, is_perm n path /\ forall i, S i < n -> E path.[i] path.[S i].

(** * Undirected connectivity *)

(** [R]-connected: the equivalence closure of [R] *)
Inductive connected (R : nat -> nat -> Prop) : nat -> nat -> Prop :=
| conn_refl x : connected R x x
| conn_edge x y : R x y -> connected R x y
| conn_sym x y : connected R x y -> connected R y x
| conn_trans x y z : connected R x y -> connected R y z -> connected R x z.

(** edges with both ends among the listed nodes *)
Definition edge_within (E : nat -> nat -> Prop) (nodes : list nat) (u v : nat) : Prop :=
  E u v /\ In u nodes /\ In v nodes.

(** the listed nodes form [K] [R]-connected components: one representative each *)
Definition n_components (R : nat -> nat -> Prop) (nodes : list nat) (K : nat) : Prop :=
  exists reps, length reps = K /\ NoDup reps /\ (forall r, In r reps -> In r nodes) /\
    (forall x, In x nodes -> exists r, In r reps /\ connected R x r) /\
    (forall r r', In r reps -> In r' reps -> connected R r r' -> r = r').

(** * Level sets *)

(** [node] is listed in slice [l] *)
Definition in_level (levelPtr levelSet : list nat) (l node : nat) : Prop :=
  exists k, levelPtr.[l] <= k < levelPtr.[S l] /\ levelSet.[k] = node.

(** [k] slices that partition [0..n) *)
Definition level_partition (n k : nat) (levelPtr levelSet : list nat) : Prop :=
  levelPtr.[0] = 0 /\ (forall l, l < k -> levelPtr.[l] <= levelPtr.[S l]) /\
  levelPtr.[k] = n /\
  (forall i, i < n -> levelSet.[i] < n) /\
  (forall i j, i < n -> j < n -> levelSet.[i] = levelSet.[j] -> i = j).

Definition level_ordered (E : nat -> nat -> Prop) (k : nat) (levelPtr levelSet : list nat) : Prop :=
  forall u v lu lv, E u v -> lu < k -> lv < k ->
    in_level levelPtr levelSet lu u -> in_level levelPtr levelSet lv v -> lu < lv.

(** * Schedules: levels of parts of nodes *)

(** node [x] is executed at position [k], in part [p] of level [l] *)
Definition sched_at (level_ptr part_ptr node_ptr : list nat) (l p k x : nat) : Prop :=
  level_ptr.[l] <= p < level_ptr.[S l] /\ part_ptr.[p] <= k < part_ptr.[S p] /\ node_ptr.[k] = x.

(** pointers are well formed: levels cut the parts [0..np), parts cut the positions [0..n) *)
Definition sched_wf (n level_no : nat) (level_ptr part_ptr node_ptr : list nat) : Prop :=
  level_no < length level_ptr /\ level_ptr.[0] = 0 /\
  (forall l, l < level_no -> level_ptr.[l] <= level_ptr.[S l]) /\
  level_ptr.[level_no] < length part_ptr /\ part_ptr.[0] = 0 /\
  (forall p, p < level_ptr.[level_no] -> part_ptr.[p] <= part_ptr.[S p]) /\
  part_ptr.[level_ptr.[level_no]] = n /\ n <= length node_ptr.

(** every node is executed exactly once *)
Definition sched_complete (n : nat) (node_ptr : list nat) : Prop :=
  (forall k, k < n -> node_ptr.[k] < n) /\
  (forall k k', k < n -> k' < n -> node_ptr.[k] = node_ptr.[k'] -> k = k').

(** every dependence is respected: an earlier level, or earlier in the same part *)
Definition sched_ordered (E : nat -> nat -> Prop) (level_no : nat)
    (level_ptr part_ptr node_ptr : list nat) : Prop :=
  forall u v lu pu ku lv pv kv,
    E u v -> lu < level_no -> lv < level_no ->
    sched_at level_ptr part_ptr node_ptr lu pu ku u ->
    sched_at level_ptr part_ptr node_ptr lv pv kv v ->
    lu < lv \/ (lu = lv /\ pu = pv /\ ku < kv).

(** the weaker condition that leaves the order inside a part open *)
Definition sched_grouped (E : nat -> nat -> Prop) (level_no : nat)
    (level_ptr part_ptr node_ptr : list nat) : Prop :=
  forall u v lu pu ku lv pv kv,
    E u v -> lu < level_no -> lv < level_no ->
    sched_at level_ptr part_ptr node_ptr lu pu ku u ->
    sched_at level_ptr part_ptr node_ptr lv pv kv v ->
    lu < lv \/ (lu = lv /\ pu = pv).

Definition part_schedule (n : nat) (E : nat -> nat -> Prop) (level_no : nat)
    (level_ptr part_ptr node_ptr : list nat) : Prop :=
  sched_wf n level_no level_ptr part_ptr node_ptr /\
  sched_complete n node_ptr /\
  sched_grouped E level_no level_ptr part_ptr node_ptr.

Definition valid_schedule (n : nat) (E : nat -> nat -> Prop) (level_no : nat)
    (level_ptr part_ptr node_ptr : list nat) : Prop :=
  sched_wf n level_no level_ptr part_ptr node_ptr /\
  sched_complete n node_ptr /\
  sched_ordered E level_no level_ptr part_ptr node_ptr.

(** * Elementary facts about the specifications *)

Lemma chain_app E u v w a b : chain E u v a -> chain E v w b -> chain E u w (a + b).
Proof.
  intros H1 H2. revert u a H1. induction H2 as [v|v x w k H IH He]; intros u a H1.
  - now rewrite Nat.add_0_r.
  - replace (a + S k) with (S (a + k)) by lia. econstructor; eauto.
Qed.

Lemma chain_one (E : nat -> nat -> Prop) u v : E u v -> chain E u v 1.
Proof. intros. econstructor; [constructor|auto]. Qed.

Lemma chain_cons (E : nat -> nat -> Prop) u v w k : E u v -> chain E v w k -> chain E u w (S k).
Proof. intros. change (S k) with (1 + k). eapply chain_app; eauto using chain_one. Qed.

Lemma chain_uncons E u w k : chain E u w (S k) -> exists v, E u v /\ chain E v w k.
Proof.
  revert w. induction k as [|k IH]; intros w H; inversion H as [|? v ? ? H1 H2]; subst.
  - inversion H1; subst. exists w. split; [auto|constructor].
  - destruct (IH v H1) as [x [Hx Hc]]. exists x. split; auto. econstructor; eauto.
Qed.

Lemma chain_mono (E F : nat -> nat -> Prop) u v k :
  (forall a b, E a b -> F a b) -> chain E u v k -> chain F u v k.
Proof. intros HE H. induction H; econstructor; eauto. Qed.

Lemma depth_is_unique E v d d' : depth_is E v d -> depth_is E v d' -> d = d'.
Proof.
  intros [[u Hu] Hm] [[u' Hu'] Hm']. apply Hm in Hu'. apply Hm' in Hu. lia.
Qed.

Lemma one_diag_of_first n Lp Li : diag_first n Lp Li -> one_diag n Lp Li.
Proof.
  intros H u Hu. destruct (H u Hu) as (H1 & H2 & H3). exists Lp.[u].
  split; [split; [lia|auto]|]. intros k' Hk E.
  destruct (Nat.eq_dec k' Lp.[u]); auto. elim (H3 k'); auto. lia.
Qed.

Lemma lower_tri_acyclic n Lp Li : lower_tri n Lp Li -> acyclic (edge n Lp Li).
Proof.
  intros H.
  assert (G : forall u v k, chain (edge n Lp Li) u v k -> u + k <= v).
  { intros u v k Hc. induction Hc as [|u v w k Hc IH He]; [lia|]. specialize (H v w He). lia. }
  intros u k Hc. apply G in Hc. lia.
Qed.

Section Csc.
Variables (n : nat) (Lp Li : list nat).
Hypothesis W : wf_csc n Lp Li.

Lemma wf_Lp_len : n < length Lp. Proof. apply W. Qed.
Lemma wf_Lp_mono i j : i <= j -> j <= n -> Lp.[i] <= Lp.[j].
Proof. apply (mono_le (aget Lp) n). apply W. Qed.
Lemma wf_Li_lt k : k < Lp.[n] -> Li.[k] < n. Proof. apply W. Qed.
Lemma wf_col_lt u k : u < n -> k < Lp.[S u] -> k < length Li /\ k < Lp.[n].
Proof.
  intros Hu Hk. pose proof (wf_Lp_mono (S u) n ltac:(lia) ltac:(lia)).
  destruct W as (_ & _ & _ & HH & _). lia.
Qed.
Lemma wf_edge_lt u v : edge n Lp Li u v -> u < n /\ v < n.
Proof.
  intros (Hu & [k [Hk E]] & _). split; auto. rewrite <- E. apply wf_Li_lt.
  apply (wf_col_lt u); [auto|lia].
Qed.
End Csc.

Lemma chain_lt n Lp Li u v k : wf_csc n Lp Li -> chain (edge n Lp Li) u v k -> u < n -> v < n.
Proof. intros W H Hu. destruct H; auto. now apply (wf_edge_lt n Lp Li W) in H0. Qed.

(** * Walks and paths *)

Lemma chain_walk E u v k : chain E u v k ->
  exists p, length p = S k /\ p.[0] = u /\ p.[k] = v /\ forall i, i < k -> E p.[i] p.[S i].
Proof.
  intros H. induction H as [u|u v w k H (p & HL & H0 & Hk & HE) He].
  - exists [u]. splits; auto. intros; lia.
  - exists (p ++ [w]). splits.
    + rewrite app_length. simpl. lia.
    + now rewrite aget_app1 by lia.
    + rewrite <- HL. apply aget_app_last.
    + intros i Hi. rewrite aget_app1 by lia. destruct (Nat.eq_dec i k) as [->|].
      * rewrite <- HL. rewrite aget_app_last. congruence.
      * rewrite aget_app1 by lia. apply HE. lia.
Qed.

Lemma walk_chain (E : nat -> nat -> Prop) (p : list nat) k : (forall i, i < k -> E p.[i] p.[S i]) ->
  forall i j, i <= j -> j <= k -> chain E p.[i] p.[j] (j - i).
Proof.
  intros HE i j Hij. induction Hij as [|j Hij IH]; intros Hj.
  - rewrite Nat.sub_diag. constructor.
  - replace (S j - i) with (S (j - i)) by lia. econstructor; [apply IH; lia|apply HE; lia].
Qed.

Lemma NoDup_dec_nat (l : list nat) : NoDup l \/ exists i j, i < j /\ j < length l /\ l.[i] = l.[j].
Proof.
  induction l as [|x t IH].
  - left. constructor.
  - destruct (in_dec Nat.eq_dec x t) as [Hin|Hin].
    + right. apply In_aget in Hin. destruct Hin as [i [Hi E]].
      exists 0, (S i). splits; [lia|simpl; lia|]. rewrite aget_cons_0, aget_cons_S. auto.
    + destruct IH as [IH|(i & j & Hij & Hj & E)].
      * left. now constructor.
      * right. exists (S i), (S j). splits; [lia|simpl; lia|]. now rewrite !aget_cons_S.
Qed.

Lemma long_walk n (E : nat -> nat -> Prop) u v k :
  (forall a b, E a b -> a < n /\ b < n) -> u < n -> chain E u v k -> n <= k -> has_cycle E.
Proof.
  intros HB Hu Hc Hk. destruct (chain_walk E u v k Hc) as (p & HL & H0 & Hv & HE).
  destruct (NoDup_dec_nat p) as [HN|(i & j & Hij & Hj & Eq)].
  - exfalso. assert (length p <= n); [|lia]. apply NoDup_bounded_length; auto.
    intros x Hx. apply In_aget in Hx. destruct Hx as [i [Hi <-]].
    destruct i as [|i]; [congruence|]. apply (HB p.[i] p.[S i]). apply HE. lia.
  - pose proof (walk_chain E p k HE i j ltac:(lia) ltac:(lia)) as Hc'. rewrite Eq in Hc'.
    exists p.[j], (j - i - 1). now replace (S (j - i - 1)) with (j - i) by lia.
Qed.

Lemma chain_prefix E u v k : chain E u v k -> forall m, m <= k -> exists w, chain E u w m.
Proof.
  intros H. induction H as [u|u v w k H IH He]; intros m Hm.
  - exists u. replace m with 0 by lia. constructor.
  - destruct (Nat.eq_dec m (S k)) as [->|]; [exists w; econstructor; eauto|]. apply IH. lia.
Qed.

Lemma cycle_long E u k : chain E u u (S k) -> forall m, exists w, chain E u w m.
Proof.
  intros Hc m. assert (G : forall j, chain E u u (j * S k)).
  { induction j as [|j IH]; [constructor|]. simpl. change (S (k + j * S k)) with (S k + j * S k).
    eapply chain_app; eauto. }
  apply (chain_prefix _ _ _ _ (G m)). lia.
Qed.

Lemma walk_all n (E : nat -> nat -> Prop) : 0 < n ->
  (forall a b, E a b -> a < n /\ b < n) ->
  ((exists u v, u < n /\ chain E u v (n - 1)) <-> has_cycle E \/ visits_all n E).
Proof.
  intros Hn HB. split.
  - intros (u & v & Hu & Hc). destruct (chain_walk E u v _ Hc) as (p & HL & H0 & Hv & HE).
    destruct (NoDup_dec_nat p) as [HN|(i & j & Hij & Hj & Eq)].
    + right. exists p. split.
      * apply is_perm_intro; auto; [lia|]. intros x Hx. apply In_aget in Hx.
        destruct Hx as [i [Hi <-]]. destruct i as [|i]; [congruence|].
        apply (HB p.[i] p.[S i]). apply HE. lia.
      * intros i Hi. apply HE. lia.
    + left. pose proof (walk_chain E p _ HE i j ltac:(lia) ltac:(lia)) as Hc'. rewrite Eq in Hc'.
      exists p.[j], (j - i - 1). now replace (S (j - i - 1)) with (j - i) by lia.
  - intros [(u & k & Hc)|(p & HP & HE)].
    + assert (Hu : u < n) by (apply chain_uncons in Hc; destruct Hc as [w [Hw _]]; now apply HB in Hw).
      destruct (cycle_long E u k Hc (n - 1)) as [w Hw]. eauto.
    + exists p.[0], p.[n - 1]. split.
      * apply (is_perm_lt n); auto.
      * rewrite <- (Nat.sub_0_r (n - 1)) at 2.
        apply (walk_chain E p (n - 1)); [|lia|lia]. intros i Hi. apply HE. lia.
Qed.
