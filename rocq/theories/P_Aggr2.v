(** C111: an empty column that no earlier column mentions. *)
From Verif Require Import Base Lib Lib2 Spec Check CheckS SpecSolve L_SpTRSV2 L_Ungroup M_Conv P_Aggr P_Collect P_LBC.
From Coq Require Import ZifyBool ZifyNat Permutation.

Lemma oo_forb_inv {S} (I : S -> Prop) (body : nat -> S -> res (bool * S)) lo hi s : I s ->
  (forall k s, lo <= k < hi -> I s -> oob_or (body k s) (fun r => I (snd r))) -> oob_or (forb_ lo hi body s) I.
Proof.
  intros HI HB. unfold forb_. assert (G : forall m i s, lo <= i -> i + m <= Nat.max lo hi -> I s -> oob_or (forb_n m i body s) I).
  { induction m as [|m IH]; intros i s0 H1 H2 H0; cbn [forb_n]; [now apply oo_ret|]. apply oo_bind. eapply oo_mono; [apply HB; [lia|auto]|].
    intros [b s1] H3. cbn [fst snd] in *. destruct b; [now apply oo_ret|apply IH; auto; lia]. }
  apply G; auto; lia.
Qed.

Section Empty.
Variables (n j : nat) (Lp Li : list nat) (asg : list (nat * nat)).
Hypothesis W : wf_csc n Lp Li.
Hypothesis Hj : j < n.
Hypothesis HE : Lp.[S j] = Lp.[j].
Hypothesis HR : forall c, c < j -> ~ entry Lp Li c j.

Lemma aggr_empty_oo : oob_or (aggr_supernodes n Lp Li asg) (fun _ => False).
Proof.
  pose proof W as (W1 & W2 & W3 & W4 & W5). unfold aggr_supernodes. oo1.
  apply (oo_while (fun '(col, gr, sups) => col <= j /\ length gr = n /\ gr.[j] = false) (fun '(col, _, _) => n - col)).
  - rewrite repeat_length, aget_repeat by auto. splits; auto. lia.
  - lia.
  - intros [[col gr] sups] (I1 & I2 & I3). oo1. replace (col <? n) with true by lia. unfold aggr_one.
    oo1. oo1. intros _. oo1. oo1. intros _. destruct (Nat.eq_dec col j) as [->|Hne].
    { replace (S Lp.[j] <=? Lp.[S j]) with false by lia. reflexivity. }
    destruct (negb _); [reflexivity|]. oo1. oo1. intros _. oo1.
    eapply oo_mono.
    { apply (oo_forb_inv (fun '(g, cur) => length g = n /\ g.[j] = false /\ g.[col] = true)).
      - rewrite upd_length, aget_upd_ne, aget_upd_eq by lia. auto.
      - intros k [g cur] Hk (J1 & J2 & J3). oo1. oo1. intros _. assert (Hit : Li.[k] <> j) by (intros E; apply (HR col); [lia|]; exists k; split; [lia|auto]).
        unfold aggr_candidate. oo1. oo1. intros _. oo1. oo1. intros _. destruct (negb _); [oo1; cbn [snd]; auto|]. oo1. oo1. intros _. destruct (g.[Li.[k]]); [oo1; cbn [snd]; auto|].
        oo1. oo1. intros _. oo1. oo1. intros _. oo1. oo1. intros _. oo1. oo1. intros _. destruct (negb _); [oo1; cbn [snd]; auto|].
        oo1. eapply oo_mono.
        { unfold same_tail. apply (oo_forb_inv (fun _ => True)); [auto|]. intros r s _ _. oo1. oo1. intros _. oo1. apply oo_rdZ. intros _. oo1. oo1. intros _. oo1. oo1. intros _.
          destruct (_ =? _); now oo1. }
        intros ok _. destruct ok; [|oo1; cbn [snd]; auto]. oo1. oo1. intros H. oo1. cbn [snd]. rewrite upd_length. splits; auto; [now rewrite aget_upd_ne by auto|].
        rewrite aget_upd by auto. now destruct (_ =? _). }
    intros [g cur] (J1 & J2 & J3). oo1. unfold aggr_next.
    apply (oo_while (fun c => col <= c <= j) (fun c => n - c)); [lia|lia|].
    intros c Hc. replace (c =? n) with false by lia. oo1. intros _. destruct g.[c] eqn:Eg.
    + oo1. destruct (Nat.eq_dec c j) as [->|]; [congruence|]. lia.
    + oo1. destruct (Nat.eq_dec c col) as [->|]; [congruence|]. splits; auto; lia.
Qed.
End Empty.

(** the range of candidates of that column ends before it begins, unless the code went out of bounds before *)
Theorem C111_empty_column_oob :
  forall n Lp Li ng gp gs no lp pp np j, wf_csc n Lp Li ->
  group_partition n ng gp gs -> ng < length gp -> n <= length gs -> sched_wf ng no lp pp np -> sched_complete ng np ->
  j < n -> Lp.[S j] = Lp.[j] -> (forall c, c < j -> ~ entry Lp Li c j) ->
  aggressiveSupernodeGrouping n gp gs Lp Li no lp pp np = Err OOB.
Proof.
  intros n Lp Li ng gp gs no lp pp np j W GP LG LS SW SC Hj HE HR.
  assert (H : oob_or (aggressiveSupernodeGrouping n gp gs Lp Li no lp pp np) (fun _ => False)).
  { unfold aggressiveSupernodeGrouping. oo1. apply oo_wp. eapply assign_nodes_wp; eauto. intros asg LA _. oo1.
    eapply oo_mono; [eapply aggr_empty_oo; eauto|]. intros r []. }
  destruct (aggressiveSupernodeGrouping n gp gs Lp Li no lp pp np); cbn [oob_or] in H; [easy|now subst].
Qed.
Print Assumptions C111_empty_column_oob.

Example C111_empty_column_case : wf_csc 3 [0;1;1;2] [0;2] /\ [0;1;1;2].[2] = [0;1;1;2].[1] /\ (forall c, c < 1 -> ~ entry [0;1;1;2] [0;2] c 1).
Proof. split; [now apply wf_cscb_ok|]. split; [reflexivity|]. intros c Hc (k & Hk & E). replace c with 0 in Hk by lia. cbn in Hk. replace k with 0 in E by lia. discriminate. Qed.

(** an empty column that joins the block of an earlier one does no harm *)
Example C111_empty_column_harmless : wf_csc 3 [0;2;3;3] [0;2;1] /\
  aggressiveSupernodeGrouping 3 [0;3] [0;1;2] [0;2;3;3] [0;2;1] 1 [0;1] [0;1] [0] = Ok (3, 2).
Proof. split; [now apply wf_cscb_ok|vm_compute; reflexivity]. Qed.
