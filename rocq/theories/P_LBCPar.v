(** C76: the parallel version of the LBC coarsening. *)
From Verif Require Import Base Lib Lib2 Spec Check M_LevelSet L_LevelSet L_LevelSet2 M_CC M_LBC M_LBCPar L_LBC L_LBC3 L_LBC5 L_LBC6 L_LBCPar3 P_LBC.
From Coq Require Import ZifyBool ZifyNat Sorted.

(** how the loop over the small slabs is shared out: every slab goes to exactly one thread, and every thread does its
    slabs in increasing order *)
Definition monotonic (dist : list nat -> list (list nat)) : Prop :=
  forall l, StronglySorted lt l -> Permutation (concat (dist l)) l /\ forall t, In t (dist l) -> StronglySorted lt t.

(** With bin packing, for every number of threads, every monotonic distribution of the slabs, whatever the racing
    additions leave in outCost, and whatever node2partition contains when it is allocated, the result is a valid
    schedule with the same bounds as the sequential version's. *)
Theorem C76_parallel_valid : forall (T : Type) (DT : Dflt T) (zero : T) add ltb int_max sortp racy dist junk n Lp Li innerParts minLevelDist divRate nodeCost,
  (forall l, Permutation (sortp l) l) -> (forall l x, length (racy l x) = length x) -> monotonic dist -> length junk = n ->
  wf_csc n Lp Li -> one_diag n Lp Li -> 0 < n -> ~ has_cycle (edge n Lp Li) -> ~ visits_all n (edge n Lp Li) ->
  innerParts <> 0%Z -> (1 <= minLevelDist)%Z -> (1 <= divRate)%Z -> n <= length nodeCost ->
  exists k levelPtr partPtr nodePtr,
    get_coarse_Level_set_DAG_CSC03_parallel zero add ltb int_max sortp racy dist junk n Lp Li innerParts minLevelDist divRate nodeCost true = Ok (k, (levelPtr, partPtr, nodePtr)) /\
    valid_schedule n (edge n Lp Li) k levelPtr partPtr nodePtr /\ 1 <= k < n /\
    length levelPtr = n + 1 /\ length partPtr = n /\ length nodePtr = n /\
    (forall l, l < k -> levelPtr.[S l] - levelPtr.[l] <= target innerParts) /\ levelPtr.[k] - levelPtr.[k - 1] <= 1.
Proof.
  intros T DT zero add ltb im sp racy dist junk n Lp Li ip md dr nc HS HR HD HJ W D1 Hn HC HV Hip Hmd Hdr HN.
  assert (G : wp (get_coarse_Level_set_DAG_CSC03_parallel zero add ltb im sp racy dist junk n Lp Li ip md dr nc true) (fun '(k, (levelPtr, partPtr, nodePtr)) =>
    valid_schedule n (edge n Lp Li) k levelPtr partPtr nodePtr /\ 1 <= k < n /\
    length levelPtr = n + 1 /\ length partPtr = n /\ length nodePtr = n /\
    (forall l, l < k -> levelPtr.[S l] - levelPtr.[l] <= target ip) /\ levelPtr.[k] - levelPtr.[k - 1] <= 1)).
  { apply (lbc_par_wp zero add ltb im sp HS racy HR dist HD); auto. intros. do 6 (split; [auto|]); auto. }
  apply wp_ok in G. destruct G as [[k [[lp pp] np]] [E HQ]]. exists k, lp, pp, np. split; auto.
Qed.
Print Assumptions C76_parallel_valid.

(** round robin over two threads *)
Fixpoint odds (l : list nat) : list nat := match l with [] => [] | x :: t => x :: match t with [] => [] | _ :: u => odds u end end.
Definition rr2 (l : list nat) : list (list nat) := [odds l; match l with [] => [] | _ :: t => odds t end].

Lemma odds_split : forall k l, length l < k -> Permutation (odds l ++ match l with [] => [] | _ :: t => odds t end) l.
Proof.
  induction k as [|k IH]; intros l Hl; [lia|]. destruct l as [|x [|y t]]; simpl; auto.
  specialize (IH t ltac:(simpl in Hl; lia)). constructor. rewrite <- Permutation_middle. constructor.
  destruct t as [|z u]; simpl in *; auto.
Qed.

Lemma odds_sorted : forall k l, length l < k -> StronglySorted lt l -> StronglySorted lt (odds l) /\ forall x, In x (odds l) -> In x l.
Proof.
  induction k as [|k IH]; intros l Hl HS; [lia|]. destruct l as [|x [|y t]]; simpl; [split; [constructor|auto]|split; [auto|auto]|].
  inversion HS as [|? ? HS2 HF]; subst. inversion HS2 as [|? ? HS3 HF2]; subst. destruct (IH t ltac:(simpl in Hl; lia) HS3) as (A & B).
  split; [|intros z [<-|Hz]; auto]. constructor; auto. rewrite Forall_forall in *. intros z Hz. apply HF. right. auto.
Qed.

Example rr2_monotonic : monotonic rr2.
Proof.
  intros l HS. split.
  - unfold rr2. simpl. rewrite app_nil_r. apply (odds_split (S (length l))). lia.
  - intros t [<-|[<-|[]]]; [apply (odds_sorted (S (length l)) l); auto; lia|]. destruct l as [|x l]; [constructor|].
    inversion HS; subst. apply (odds_sorted (S (length l)) l); auto; lia.
Qed.

(** three chains of three nodes; C44_hyps shows the remaining hypotheses.  Thread 0 does slabs 0 and 2, thread 1 slab 1;
    node 5 goes to another part than in the sequential run, because thread 1 starts with empty bins. *)
Example C76_run : get_coarse_Level_set_DAG_CSC03_parallel 0%Z Z.add Z.ltb INT_MAX sort_desc (fun _ x => x) rr2 (repeat 77 9) 9 chains3_p chains3_i 2 1 1 (repeat 1%Z 9) true =
  Ok (3, ([0; 1; 3; 4; 0; 0; 0; 0; 0; 0], [0; 3; 5; 6; 9; 0; 0; 0; 0], [0; 1; 2; 3; 5; 4; 6; 7; 8])).
Proof. vm_compute. reflexivity. Qed.

(** It is false without the order: schedule(dynamic,1) lets a thread take a later slab first (its default modifier is
    nonmonotonic since OpenMP 5.0); marks the thread has left on the level below its slab then hide the nodes of this
    level when the thread does the earlier slab, and the schedule misses them. *)
Theorem C76_order_refuted : ~ (forall (zero : Z) add ltb int_max sortp racy dist junk n Lp Li innerParts minLevelDist divRate nodeCost,
  (forall l, Permutation (sortp l) l) -> (forall l x, length (racy l x) = length x) ->
  (forall l, Permutation (concat (dist l)) l) -> length junk = n ->
  wf_csc n Lp Li -> one_diag n Lp Li -> 0 < n -> ~ has_cycle (edge n Lp Li) -> ~ visits_all n (edge n Lp Li) ->
  innerParts <> 0%Z -> (1 <= minLevelDist)%Z -> (1 <= divRate)%Z -> n <= length nodeCost ->
  exists k levelPtr partPtr nodePtr,
    get_coarse_Level_set_DAG_CSC03_parallel zero add ltb int_max sortp racy dist junk n Lp Li innerParts minLevelDist divRate nodeCost true = Ok (k, (levelPtr, partPtr, nodePtr)) /\
    partPtr.[levelPtr.[k]] = n).
Proof.
  intros H. destruct C44_hyps as (H1 & H2 & H3 & H4).
  destruct (H 0%Z Z.add Z.ltb INT_MAX sort_desc (fun _ x => x) (fun l => [rev l]) (repeat 0 9) 9 chains3_p chains3_i 2%Z 2%Z 1%Z (repeat 1%Z 9)) as (k & lp & pp & np & E & EQ); auto; try lia.
  - apply sort_desc_perm.
  - intros l. simpl. rewrite app_nil_r. symmetry. apply Permutation_rev.
  - vm_compute in E. injection E as <- <- <- <-. vm_compute in EQ. discriminate.
Qed.
Print Assumptions C76_order_refuted.

(** It is false without bin packing: if no node depends on another one there are n parts, and finalPartPtr has n cells. *)
Theorem C76_no_packing_refuted : ~ (forall (zero : Z) add ltb int_max sortp racy dist junk n Lp Li innerParts minLevelDist divRate nodeCost,
  (forall l, Permutation (sortp l) l) -> (forall l x, length (racy l x) = length x) -> monotonic dist -> length junk = n ->
  wf_csc n Lp Li -> one_diag n Lp Li -> 0 < n -> ~ has_cycle (edge n Lp Li) -> ~ visits_all n (edge n Lp Li) ->
  innerParts <> 0%Z -> (1 <= minLevelDist)%Z -> (1 <= divRate)%Z -> n <= length nodeCost ->
  exists r, get_coarse_Level_set_DAG_CSC03_parallel zero add ltb int_max sortp racy dist junk n Lp Li innerParts minLevelDist divRate nodeCost false = Ok r).
Proof.
  intros H. destruct C44_hyps as (H1 & H2 & H3 & H4).
  destruct (H 0%Z Z.add Z.ltb INT_MAX sort_desc (fun _ x => x) rr2 (repeat 0 9) 9 chains3_p chains3_i 2%Z 1%Z 1%Z (repeat 1%Z 9)) as (r & E); auto; try lia.
  - apply sort_desc_perm.
  - apply rr2_monotonic.
  - vm_compute in E. discriminate.
Qed.
Print Assumptions C76_no_packing_refuted.

(** cycles and single chains *)
Theorem C76_chain_throws : forall (T : Type) (DT : Dflt T) (zero : T) add ltb int_max sortp racy dist junk n Lp Li innerParts minLevelDist divRate nodeCost binPacking,
  wf_csc n Lp Li -> one_diag n Lp Li -> 0 < n -> has_cycle (edge n Lp Li) \/ visits_all n (edge n Lp Li) ->
  get_coarse_Level_set_DAG_CSC03_parallel zero add ltb int_max sortp racy dist junk n Lp Li innerParts minLevelDist divRate nodeCost binPacking = Err Throw.
Proof.
  intros T DT zero add ltb im sp racy dist junk n Lp Li ip md dr nc bp W D1 Hn HC. unfold get_coarse_Level_set_DAG_CSC03_parallel, build_levelSet_CSC_alloc.
  destruct (inplace_total n Lp Li (repeat 0 (n + 1)) (repeat 0 n) W D1) as (lv & lp & ls & n2 & Ei & Hl).
  { rewrite repeat_length. lia. } { rewrite repeat_length. lia. } { rewrite aget_repeat by lia. auto. }
  rewrite Ei. cbn [bind]. destruct Hl as [(-> & _)|(_ & _ & H)]; [auto|tauto].
Qed.
Print Assumptions C76_chain_throws.
