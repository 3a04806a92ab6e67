(** C80-C82: level sets of a tree, splitting a forest into its trees, tree coarsening. *)
From Coq Require Import ZifyBool ZifyNat.
From Verif Require Import Base Lib Lib2 Lib3 Spec M_Tree M_LBC M_LBCTree P_Tree L_Post2 P_Post P_TreeH L_LevelSet L_LevelSet2 L_LBC L_LBC2 L_LBC3 L_LBC4 L_LBC5
  L_LBCTree L_LBCTree2 L_LBCTree3 P_Collect L_LBCTree4 L_LBCTree5 L_LBCTree6 L_LBCTree7.

(** levels by height: slice [l] lists the nodes whose longest chain of descendants has [l] edges *)
Definition height_levels (n : nat) (tree : list Z) (k : nat) (lp ls : list nat) : Prop :=
  level_partition n k lp ls /\
  (forall l v, v < n -> (l < k /\ in_level lp ls l v <-> depth_is (tree_edge n tree) v l)) /\
  (forall l, l < k -> exists v, v < n /\ in_level lp ls l v).

Lemma buckets_levels n tree h k lp ls : (forall v, v < n -> depth_is (tree_edge n tree) v h.[v]) -> (forall v, v < n -> h.[v] < k) ->
  (forall l, l < k -> exists w, w < n /\ h.[w] = l) ->
  (forall l, l <= k -> lp.[l] = cbase n (aget h) l) -> (forall v, v < n -> ls.[cpos n (aget h) v] = v) -> height_levels n tree k lp ls.
Proof.
  intros D Dk HW LP LS.
  assert (AT : forall v, v < n -> in_level lp ls h.[v] v).
  { intros v Hv. exists (cpos n (aget h) v). split; [|auto]. specialize (Dk v Hv). rewrite !LP by lia. split; [apply cpos_lo|now apply cpos_hi]. }
  assert (BACK : forall i, i < n -> exists v, v < n /\ cpos n (aget h) v = i /\ ls.[i] = v).
  { intros i Hi. destruct (cpos_onto n (aget h) i Hi) as (v & Hv & Ev). exists v. splits; auto. rewrite <- Ev. auto. }
  assert (UNI : forall l v, v < n -> l < k -> in_level lp ls l v -> h.[v] = l).
  { intros l v Hv Hl (i & Hi & Ei). rewrite !LP in Hi by lia. pose proof (cbase_le n (aget h) (S l)).
    destruct (BACK i ltac:(lia)) as (w & Hw & Ew & Eq). rewrite Eq in Ei. rewrite Ei in Ew. apply (cpos_bucket n (aget h) v l); auto. rewrite Ew. auto. }
  split; [|split].
  - unfold level_partition. splits.
    + rewrite LP by lia. apply cbase_0.
    + intros l Hl. rewrite !LP by lia. apply cbase_mono. lia.
    + rewrite LP by lia. now apply cbase_all.
    + intros i Hi. destruct (BACK i Hi) as (v & Hv & _ & ->). auto.
    + intros i j Hi Hj Eij. destruct (BACK i Hi) as (v & Hv & Ev & E1), (BACK j Hj) as (w & Hw & Ew & E2). congruence.
  - intros l v Hv. split.
    + intros [Hl HI]. rewrite <- (UNI l v Hv Hl HI). auto.
    + intros HD. rewrite <- (depth_is_unique _ _ _ _ (D v Hv) HD). auto.
  - intros l Hl. destruct (HW l Hl) as (w & Hw & <-). eauto.
Qed.

(** * C80 *)

(** For every forest of at least two nodes and zeroed arrays of the sizes the callers use:
    build_level_set_tree_efficient returns the levels by height, and the height of each node. *)
Theorem C80_tree_levels : forall n tree nChild levelPtr levelSet,
  forest n tree -> 2 <= n -> n <= length nChild -> (forall u, u < n -> nChild.[u] = length (children n tree u)) ->
  n < length levelPtr -> n <= length levelSet -> levelPtr.[0] = 0 -> levelPtr.[1] = 0 ->
  exists k lp ls n2l, build_level_set_tree_efficient n tree nChild levelPtr levelSet (repeat 0 n) = Ok (k, (lp, ls, n2l)) /\
    height_levels n tree k lp ls /\ forall v, v < n -> depth_is (tree_edge n tree) v n2l.[v].
Proof.
  intros n tree nc levelPtr levelSet FO N2 NL NC H1 H2 H3 H4.
  assert (G : wp (build_level_set_tree_efficient n tree nc levelPtr levelSet (repeat 0 n)) (fun '(k, (lp, ls, n2l)) =>
    height_levels n tree k lp ls /\ forall v, v < n -> depth_is (tree_edge n tree) v n2l.[v])).
  { apply (build_levels_wp n tree FO nc); auto. intros k lp ls n2l (L1 & L2 & L3 & D & Dk & (v1 & Hv1 & Ev1) & Kn & LP & _ & LS). split; auto.
    apply (buckets_levels n tree n2l); auto. intros l Hl. apply (h_down n tree n2l D v1 l); auto. lia. }
  destruct (build_level_set_tree_efficient _ _ _ _ _ _) as [[k [[lp ls] n2l]]|e]; [|easy]. exists k, lp, ls, n2l. split; auto.
Qed.
Print Assumptions C80_tree_levels.

(** With fewer than two nodes it always writes out of bounds (level_cnt[1]). *)
Theorem C80_small_out_of_bounds : forall n tree nChild levelPtr levelSet,
  forest n tree -> n <= 1 -> n <= length nChild -> (forall u, u < n -> nChild.[u] = length (children n tree u)) ->
  n < length levelPtr -> n <= length levelSet ->
  build_level_set_tree_efficient n tree nChild levelPtr levelSet (repeat 0 n) = Err OOB.
Proof. intros n tree nc levelPtr levelSet FO N1 NL NC H1 H2. apply build_levels_small; auto. Qed.
Print Assumptions C80_small_out_of_bounds.

(** build_level_set_tree returns the same levels, for forests of any size. *)
Theorem C80_tree_levels_rounds : forall n tree levelPtr levelSet,
  forest n tree -> n < length levelPtr -> n <= length levelSet ->
  exists k lp ls, build_level_set_tree n tree levelPtr levelSet = Ok (k, (lp, ls)) /\ height_levels n tree k lp ls.
Proof.
  intros n tree levelPtr levelSet FO H1 H2. destruct (heights_exist n tree FO) as [h HD].
  assert (G : wp (build_level_set_tree n tree levelPtr levelSet) (fun '(k, (lp, ls)) => height_levels n tree k lp ls)).
  { apply (rounds_wp n tree FO h HD); auto. intros k lp ls L1 L2 Dk Hex H0 LP _ LS. apply (buckets_levels n tree h); auto.
    intros l Hl. destruct (Nat.eq_dec n 0) as [E0|E0]; [rewrite (H0 E0) in Hl; lia|]. destruct (Hex ltac:(lia)) as (v1 & Hv1 & Ev1).
    apply (h_down n tree h HD v1 l); auto. lia. }
  destruct (build_level_set_tree _ _ _ _) as [[k [lp ls]]|e]; [|easy]. exists k, lp, ls. auto.
Qed.
Print Assumptions C80_tree_levels_rounds.

(** a forest with a branch, a chain and a single node *)
Definition ex_tree : list Z := [4; 2; 4; -1; 6; 6; -1; -1]%Z.

Example C80_case : build_level_set_tree_efficient 8 ex_tree [0; 0; 1; 0; 2; 0; 2; 0] (repeat 0 9) (repeat 0 8) (repeat 0 8) =
    Ok (4, ([0; 5; 6; 7; 8; 0; 0; 0; 0], [0; 1; 3; 5; 7; 2; 4; 6], [0; 0; 1; 0; 2; 0; 3; 0])) /\
  build_level_set_tree 8 ex_tree (repeat 0 9) (repeat 0 8) = Ok (4, ([0; 5; 6; 7; 8; 0; 0; 0; 0], [0; 1; 3; 5; 7; 2; 4; 6])).
Proof. split; vm_compute; reflexivity. Qed.

Lemma ex_forest : forest 8 ex_tree.
Proof.
  apply forest_intro; [simpl; lia|]. intros u Hu. do 8 (destruct u as [|u]; [(left; reflexivity) || (right; split; reflexivity)|]). lia.
Qed.

Example C80_hyps : forest 8 ex_tree /\ forall u, u < 8 -> [0; 0; 1; 0; 2; 0; 2; 0].[u] = length (children 8 ex_tree u).
Proof. split; [apply ex_forest|]. intros u Hu. do 8 (destruct u as [|u]; [reflexivity|]). lia. Qed.

(** * C81 *)

(** post_order_spliting, with the children lists of populateChildren, on the nodes of a forest (the
    other nodes have parent -2): the parts are exactly the trees, each listed with children before
    parents; the cost of a part is the sum over its nodes in this order. *)
Theorem C81_splitting : forall (T : Type) (DT : Dflt T) add n tt (cost oc : list T) childPtr childNo nChild bins,
  part_forest n tt -> n <= length cost -> n < length childPtr -> n <= length childNo -> length nChild = n -> (forall p, p < n -> nChild.[p] = 0) ->
  0 < bins -> n <= length oc ->
  exists cp cn nc, populate_children n tt childPtr childNo nChild = Ok (cp, cn, nc) /\
  exists parts oc' nc', post_order_spliting add n tt cost cp cn nc bins oc = Ok (parts, oc', nc') /\
    tree_parts n tt parts /\ length parts <= n /\
    forall j, j < length parts -> oc'.[j] = fold_left add (map (aget cost) parts.[j]) oc.[j].
Proof.
  intros T DT add n tt cost oc childPtr childNo nChild bins PF CL H1 H2 H3 H4 Hb Ho.
  assert (PA : parent_array n tt).
  { destruct PF as [TL H]. split; [lia|]. intros v Hv. destruct (H v Hv) as [->|[d Hd]]; [lia|]. inversion Hd; lia. }
  pose proof (populate_children_wp n tt PA childPtr childNo nChild H1 ltac:(lia) ltac:(lia) H4) as G.
  destruct (populate_children n tt childPtr childNo nChild) as [[[cp cn] nc]|e]; [|easy]. destruct G as (J1 & J2 & J3 & J4 & J5 & J6).
  exists cp, cn, nc. split; auto.
  assert (G : wp (post_order_spliting add n tt cost cp cn nc bins oc) (fun '(parts, oc', nc') => tree_parts n tt parts /\ length parts <= n /\
    forall j, j < length parts -> oc'.[j] = fold_left add (map (aget cost) parts.[j]) oc.[j])).
  { apply (post_order_spliting_wp add n tt cost cp cn PF CL); auto; try lia; split; auto; lia. }
  destruct (post_order_spliting _ _ _ _ _ _ _ _ _) as [[[parts oc'] nc']|e]; [|easy]. exists parts, oc', nc'. split; auto.
Qed.
Print Assumptions C81_splitting.

(** the same forest without the nodes of one level *)
Definition ex_tt : list Z := [-1; 2; -1; -1; -2; 6; -1; -1]%Z.

Example C81_case : exists cp cn nc nc', populate_children 8 ex_tt (repeat 0 9) (repeat 0 8) (repeat 0 8) = Ok (cp, cn, nc) /\
  post_order_spliting Nat.add 8 ex_tt [1; 2; 3; 4; 5; 6; 7; 8] cp cn nc 3 (repeat 0 8) = Ok ([[0]; [1; 2]; [3]; [5; 6]; [7]], [1; 5; 4; 13; 8; 0; 0; 0], nc').
Proof. do 4 eexists. split; vm_compute; reflexivity. Qed.

Example C81_hyps : part_forest 8 ex_tt.
Proof.
  split; [reflexivity|]. assert (R : forall r, ex_tt.[r] = (-1)%Z -> exists d, dep 8 ex_tt r d) by (intros r Hr; exists 0; now constructor).
  assert (D1 : dep 8 ex_tt 1 1) by (apply dep_S with 2; [reflexivity|lia|constructor; reflexivity]).
  assert (D5 : dep 8 ex_tt 5 1) by (apply dep_S with 6; [reflexivity|lia|constructor; reflexivity]).
  intros v Hv. do 8 (destruct v as [|v]; [(left; reflexivity) || (right; apply R; reflexivity) || (right; eexists; eassumption)|]). lia.
Qed.

(** * C82 *)

(** When the tree has a chain of two edges (at least three levels): every call reads out of bounds,
    whatever the parameters and costs. *)
Theorem C82_three_levels_out_of_bounds : forall (T : Type) (DT : Dflt T) zero add ltb int_max sortp n tree innerParts minLevelDist divRate (nodeCost : list T) u v,
  (forall l, Permutation (sortp l) l) -> forest n tree -> n <= length nodeCost -> u < n -> chain (tree_edge n tree) u v 2 ->
  get_coarse_levelSet_tree zero add ltb int_max sortp None n n tree innerParts minLevelDist divRate nodeCost = Err OOB.
Proof.
  intros T DT zero add ltb im sp n tree ip md dr cost u v SP FO CL Hu Hc.
  pose proof (chain_short n tree FO u v 2 Hu Hc). apply (driver_oob zero add ltb im sp SP cost n tree FO CL ltac:(lia) n ip md dr u v); auto. lia.
Qed.
Print Assumptions C82_three_levels_out_of_bounds.

(** With at most two levels and at least two nodes: one level with one part, a valid schedule. *)
Theorem C82_two_levels : forall (T : Type) (DT : Dflt T) zero add ltb int_max sortp n tree innerParts minLevelDist divRate (nodeCost : list T),
  (forall l, Permutation (sortp l) l) -> forest n tree -> n <= length nodeCost -> 2 <= n -> (forall u v, u < n -> ~ chain (tree_edge n tree) u v 2) ->
  exists lp pp np,
    get_coarse_levelSet_tree zero add ltb int_max sortp None n n tree innerParts minLevelDist divRate nodeCost = Ok (1, (lp, pp, np)) /\
    valid_schedule n (tree_edge n tree) 1 lp pp np /\ lp.[1] = 1.
Proof.
  intros T DT zero add ltb im sp n tree ip md dr cost SP FO CL N2 HC.
  pose proof (driver_wpx zero add ltb im sp SP cost n tree FO CL N2 None n ip md dr ltac:(lia) ltac:(auto)) as G.
  destruct (get_coarse_levelSet_tree _ _ _ _ _ _ _ _ _ _ _ _ _) as [[m [[lp pp] np]]|[]]; try easy.
  - destruct G as (G1 & G2 & G3 & G4 & G5). destruct (G5 HC) as [-> G6]. exists lp, pp, np. splits; auto.
    destruct G2 as ((A1 & A2 & A3 & A4 & A5 & A6 & A7 & A8) & _). destruct (Nat.eq_dec lp.[1] 0) as [E0|]; [rewrite E0 in A7; lia|lia].
  - destruct G as (_ & _ & G). specialize (G HC). lia.
Qed.
Print Assumptions C82_two_levels.

(** If the reads beyond levelCost and levelPtr give harmless values (none above n), the result is a valid
    schedule with at most min(n, max(1, 2 innerParts - 1)) parts, provided that finalPartPtr (n cells
    in the code) has more cells than that. *)
Theorem C82_valid : forall (T : Type) (DT : Dflt T) zero add ltb int_max sortp stray cap n tree innerParts minLevelDist divRate (nodeCost : list T),
  (forall l, Permutation (sortp l) l) -> forest n tree -> n <= length nodeCost -> 2 <= n -> stray <= n ->
  (n < cap \/ (Z.max 1 (2 * innerParts - 1) < Z.of_nat cap)%Z) ->
  exists k lp pp np,
    get_coarse_levelSet_tree zero add ltb int_max sortp (Some stray) cap n tree innerParts minLevelDist divRate nodeCost = Ok (k, (lp, pp, np)) /\
    valid_schedule n (tree_edge n tree) k lp pp np /\ 1 <= k <= n /\ lp.[k] <= n /\ (Z.of_nat lp.[k] <= Z.max 1 (2 * innerParts - 1))%Z.
Proof.
  intros T DT zero add ltb im sp stray cap n tree ip md dr cost SP FO CL N2 Hs Hcap.
  pose proof (driver_wpx zero add ltb im sp SP cost n tree FO CL N2 (Some stray) cap ip md dr ltac:(destruct Hcap; lia) ltac:(eauto)) as G. unfold tree_bound in G.
  destruct (get_coarse_levelSet_tree _ _ _ _ _ _ _ _ _ _ _ _ _) as [[m [[lp pp] np]]|[]]; try easy.
  - destruct G as (G1 & G2 & G3 & G4 & _). exists m, lp, pp, np. splits; auto; lia.
  - exfalso. destruct G as (G1 & G2 & _). lia.
Qed.
Print Assumptions C82_valid.

Definition id_sort (l : list (nat * list nat)) := l.
Definition get_tree_nat := get_coarse_levelSet_tree 0 Nat.add Nat.ltb 1000 id_sort.

(** four levels, two slabs *)
Example C82_case :
  get_tree_nat None 8 8 ex_tree 2 1 2 (repeat 1 8) = Err OOB /\
  (exists lp pp np, get_tree_nat (Some 0) 8 8 ex_tree 2 0 2 (repeat 1 8) = Ok (2, (lp, pp, np))) /\
  get_tree_nat None 4 4 [3; 3; -1; -1]%Z 2 1 2 (repeat 1 4) = Ok (1, ([0; 1; 0; 0; 0], [0; 4; 0; 0], [0; 1; 3; 2])).
Proof. splits; [|do 3 eexists|]; vm_compute; reflexivity. Qed.

Example C82_hyps : forest 8 ex_tree /\ chain (tree_edge 8 ex_tree) 0 6 2 /\ (Z.max 1 (2 * 2 - 1) < 8)%Z.
Proof.
  split; [apply ex_forest|]. split; [|lia]. apply chain_snoc with 4; [apply chain_snoc with 0; [constructor|]|]; (split; [lia|split; [lia|reflexivity]]).
Qed.

(** With more parts than that finalPartPtr is too short: a tree of 14 nodes, 8 parts, no distance
    between the cuts; every node gets its own part and the last bound is written out of bounds. *)
Definition ex_bin : list Z := [8; 8; 9; 9; 10; 10; 11; 11; 12; 12; 13; 13; -1; -1]%Z.
Theorem C82_part_array_refuted :
  ~ (forall stray n tree innerParts minLevelDist divRate nodeCost, forest n tree -> n <= length nodeCost -> 2 <= n -> stray <= n ->
       get_tree_nat (Some stray) n n tree innerParts minLevelDist divRate nodeCost <> Err OOB).
Proof.
  intros H. apply (H 0 14 ex_bin 8%Z 0%Z 2%Z (repeat 1 14)); try (simpl; lia).
  - apply forest_intro; [simpl; lia|]. intros u Hu. do 14 (destruct u as [|u]; [(left; reflexivity) || (right; split; reflexivity)|]). lia.
  - vm_compute. reflexivity.
Qed.
Print Assumptions C82_part_array_refuted.

(** the same call with one more cell *)
Example C82_part_array_case : exists lp pp np, get_tree_nat (Some 0) 15 14 ex_bin 8 0 2 (repeat 1 14) = Ok (3, (lp, pp, np)) /\ lp.[3] = 14.
Proof. do 3 eexists. split; vm_compute; reflexivity. Qed.

(** Fewer than two nodes: every call writes out of bounds. *)
Theorem C82_small_out_of_bounds : forall (T : Type) (DT : Dflt T) zero add ltb int_max sortp stray cap n tree innerParts minLevelDist divRate (nodeCost : list T),
  forest n tree -> n <= 1 ->
  get_coarse_levelSet_tree zero add ltb int_max sortp stray cap n tree innerParts minLevelDist divRate nodeCost = Err OOB.
Proof.
  intros T DT zero add ltb im sp stray cap n tree ip md dr cost FO N1. unfold get_coarse_levelSet_tree.
  assert (E : for_ 0 n (fun l nc => p <- rd tree l ;; if (0 <=? p)%Z then c <- rdZ nc p ;; wrZ nc p (S c) else Ok nc) (repeat 0 n) = Ok (repeat 0 n)
     /\ forall u, u < n -> length (children n tree u) = 0).
  { destruct (Nat.eq_dec n 0) as [->|]; [split; [reflexivity|lia]|]. assert (n = 1) by lia. subst n. destruct FO as (TL & TB & RT).
    assert (T0 : tree.[0] = (-1)%Z).
    { destruct (dep_exists 1 tree (conj TL (conj TB RT)) 0 ltac:(lia)) as [d Hd]. pose proof (dep_lt 1 tree 0 d ltac:(lia) Hd) as L.
      assert (d = 0) by lia. subst d. now inversion Hd. }
    destruct tree as [|t tree]; [simpl in TL; lia|]. change ((t :: tree).[0]) with t in T0. subst t. split; [reflexivity|].
    intros u Hu. assert (u = 0) by lia. subst u. reflexivity. }
  destruct E as [-> EC]. cbn [bind].
  rewrite (build_levels_small n tree FO (repeat 0 n)); auto; rewrite ?repeat_length; try lia.
  split; [rewrite ?repeat_length; lia|]. intros u Hu. rewrite EC by auto. now apply repeat0.
Qed.
Print Assumptions C82_small_out_of_bounds.
