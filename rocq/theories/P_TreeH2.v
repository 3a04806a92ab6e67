(** C67: the cost of node 0 in compute_subtree_cost. *)
From Coq Require Import ZifyBool ZifyNat.
From Verif Require Import Base Lib Lib2 Lib3 Spec Check M_Tree P_Tree L_Post2 P_Post L_Group4.
From Verif Require Import P_TreeH.

(** Whatever the numbering, node 0 keeps its own weight, also if it is the parent of all others. *)
Theorem C67_node_zero : forall n tree w, 0 < n -> n <= length tree -> n <= length w -> (forall u, u < n -> (tree.[u] < Z.of_nat n)%Z) ->
  exists cost, compute_subtree_cost n tree w = Ok cost /\ length cost = n /\ cost.[0] = w.[0].
Proof.
  intros n tree w Hn LT LW HT. apply wp_ok. unfold compute_subtree_cost. apply wp_bind.
  apply (wp_for (fun i cost => length cost = n /\ (0 < i -> cost.[0] = w.[0]))); [lia|split; [apply repeat_length|lia]| |].
  - intros i cost Hi (L & H). apply wp_bind. apply wp_rd; [lia|]. apply wp_wr; [lia|]. rewrite upd_length. split; [exact L|]. intros _.
    destruct (Nat.eq_dec i 0) as [->|]; [now rewrite aget_upd_eq by lia|]. rewrite aget_upd_ne by lia. apply H. lia.
  - intros cost (L & H). apply (wp_for (fun _ cost => length cost = n /\ cost.[0] = w.[0])); [lia|split; [exact L|apply H; lia]| |auto].
    clear cost L H. intros i cost Hi (L & H). apply wp_bind. apply wp_rd; [lia|]. specialize (HT i ltac:(lia)).
    destruct (Z.ltb_spec 0 tree.[i]); [|apply wp_ret; auto].
    unfold rdZ, wrZ. replace (tree.[i] <? 0)%Z with false by lia. apply wp_bind. apply wp_rd; [lia|]. apply wp_bind. apply wp_rd; [lia|]. apply wp_wr; [lia|].
    rewrite upd_length. split; [exact L|]. rewrite aget_upd_ne by lia. exact H.
Qed.
Print Assumptions C67_node_zero.
Example C67_node_zero_case : forest 3 [-1; 0; 1]%Z /\ compute_subtree_cost 3 [-1; 0; 1]%Z [5; 1; 1] = Ok [5; 2; 1].
Proof.
  split; [|reflexivity]. unfold forest. splits; [cbn; lia| |].
  - intros [|[|[|u]]] Hu; try lia; vm_compute; split; congruence.
  - assert (A1 : desc 3 [-1; 0; 1]%Z 1 0) by (eapply (desc_step 3 _ 1 0); [reflexivity|lia|constructor]).
    intros [|[|[|u]]] Hu; try lia; exists 0; (split; [|reflexivity]); [constructor|exact A1|].
    eapply (desc_step 3 _ 2 1); [reflexivity|lia|exact A1].
Qed.
