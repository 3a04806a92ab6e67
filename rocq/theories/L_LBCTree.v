(** Proofs about the level sets of a tree (M_LBCTree.v). *)
From Coq Require Import ZifyBool ZifyNat.
From Verif Require Import Base Lib Lib2 Lib3 Spec M_Tree M_LBC M_LBCTree P_Tree L_Post2 P_Post P_TreeH.

(** the dependences of a tree: child to parent *)
Definition tree_edge (n : nat) (tree : list Z) (u v : nat) : Prop := u < n /\ v < n /\ tree.[u] = Z.of_nat v.

Section Levels.
Variables (n : nat) (tree : list Z).
Hypothesis FO : forest n tree.
Notation E := (tree_edge n tree).

Lemma te_lt u v : E u v -> u < n /\ v < n.
Proof. intros (A & B & _). auto. Qed.

Lemma te_fun u v w : E u v -> E u w -> v = w.
Proof. intros (_ & _ & A) (_ & _ & B). lia. Qed.

Lemma te_parent u : u < n -> (0 <= tree.[u])%Z -> E u (Z.to_nat tree.[u]).
Proof. intros Hu H. destruct FO as (_ & HB & _). specialize (HB u Hu). split; [auto|lia]. Qed.

Lemma te_root u v : (tree.[u] < 0)%Z -> ~ E u v.
Proof. intros H (_ & _ & A). lia. Qed.

Lemma chain_dep u v k d : chain E u v k -> dep n tree v d -> dep n tree u (k + d).
Proof.
  revert u. induction k as [|k IH]; intros u Hc Hd.
  - inversion Hc; subst. auto.
  - apply chain_uncons in Hc. destruct Hc as (w & (A & B & C) & Hc). simpl. econstructor; eauto.
Qed.

Lemma chain_short u v k : u < n -> chain E u v k -> k < n.
Proof.
  intros Hu Hc. assert (Hv : v < n) by (destruct Hc; auto; now apply te_lt in H).
  destruct (dep_exists n tree FO v Hv) as [d Hd]. pose proof (chain_dep u v k d Hc Hd) as H. apply dep_lt in H; auto. lia.
Qed.

Lemma te_acyclic : acyclic E.
Proof.
  intros u k Hc. assert (Hu : u < n) by (apply chain_uncons in Hc; destruct Hc as (w & H & _); now apply te_lt in H).
  destruct (dep_exists n tree FO u Hu) as [d Hd]. pose proof (chain_dep u u _ d Hc Hd) as H. pose proof (dep_fun n tree u d Hd _ H). lia.
Qed.

Lemma chain_end_lt u v k : u < n -> chain E u v k -> v < n.
Proof. intros Hu Hc. destruct Hc; auto. now apply te_lt in H. Qed.

(** chains from a node follow its parents *)
Lemma chain_rest u a b i j : chain E u a i -> chain E u b j -> i <= j -> chain E a b (j - i).
Proof.
  revert u j. induction i as [|i IH]; intros u j H1 H2 Hij.
  - inversion H1; subst. now rewrite Nat.sub_0_r.
  - destruct j as [|j]; [lia|]. apply chain_uncons in H1, H2. destruct H1 as (w & A & H1), H2 as (w' & A' & H2).
    rewrite (te_fun u w' w A' A) in H2. simpl. apply (IH w); auto. lia.
Qed.

(** a chain to a node can be begun at a leaf *)
Definition leaf (u : nat) : Prop := u < n /\ children n tree u = [].

Lemma leaf_below u : u < n -> exists l k, leaf l /\ chain E l u k.
Proof.
  intros Hu. destruct (dep_exists n tree FO u Hu) as [d Hd]. remember (n - d) as m eqn:Em.
  assert (Hm : n - d <= m) by lia. clear Em. revert u d Hu Hd Hm. induction m as [|m IH]; intros u d Hu Hd Hm; pose proof (dep_lt n tree u d Hu Hd); [lia|].
  destruct (children n tree u) as [|c l] eqn:Ec; [exists u, 0; repeat split; auto; constructor|].
  assert (Hc : In c (children n tree u)) by (rewrite Ec; now left). unfold children in Hc. apply filter_In in Hc. destruct Hc as [H1 H2]. apply in_seq in H1. apply Z.eqb_eq in H2.
  destruct (IH c (S d)) as (l' & k & A & B); [lia|econstructor; eauto|lia|]. exists l', (S k). split; auto. econstructor; eauto. split; [lia|auto].
Qed.

Lemma leaf_chain u v k : u < n -> chain E u v k -> exists l k', leaf l /\ chain E l v k' /\ k <= k'.
Proof.
  intros Hu Hc. destruct (leaf_below u Hu) as (l & j & A & B). exists l, (j + k). splits; auto; [|lia]. eapply chain_app; eauto.
Qed.

Lemma leaf_no_in u v : leaf v -> ~ E u v.
Proof.
  intros [Hv Hc] (A & B & C). assert (In u (children n tree v)); [|rewrite Hc in *; easy].
  unfold children. apply filter_In. split; [apply in_seq; lia|apply Z.eqb_eq; auto].
Qed.

Variable nChild : list nat.
Hypothesis NC : n <= length nChild /\ forall u, u < n -> nChild.[u] = length (children n tree u).

Lemma nc_leaf u : u < n -> nChild.[u] = 0 <-> leaf u.
Proof. intros Hu. destruct NC as [_ NC2]. rewrite NC2 by auto. unfold leaf. destruct (children n tree u); simpl; split; try lia; intuition discriminate. Qed.

(** the levels as far as the leaves below [i] and the first [m] edges above leaf [i] tell *)
Definition lev_inv (i m : nat) (n2l : list nat) : Prop :=
  length n2l = n /\
  (forall u v k, leaf u -> chain E u v k -> u < i \/ (u = i /\ k <= m) -> k <= n2l.[v]) /\
  (forall v, v < n -> n2l.[v] = 0 \/ exists u, leaf u /\ chain E u v n2l.[v] /\ (u < i \/ (u = i /\ n2l.[v] <= m))).

Lemma lev_inv_next i m n2l : (forall u v k, leaf u -> chain E u v k -> u < S i -> k <= n2l.[v]) -> lev_inv i m n2l -> lev_inv (S i) 0 n2l.
Proof.
  intros H (A & B & C). unfold lev_inv. splits; auto.
  - intros u v k H1 H2 [H3|[-> H3]]; [eauto|]. replace k with 0 by lia. lia.
  - intros v Hv. destruct (C v Hv) as [C1|(u & C1 & C2 & C3)]; auto. right. exists u. splits; auto. left. lia.
Qed.

Lemma lev_inv_skip i n2l : ~ leaf i -> lev_inv i 0 n2l -> lev_inv (S i) 0 n2l.
Proof.
  intros H I. eapply lev_inv_next; eauto. intros u v k H1 H2 H3. apply I with (u := u); auto.
  assert (u <> i) by (intros ->; auto). left. lia.
Qed.

Definition walk_up : list nat -> nat -> res (bool * nat * nat * list nat) := fun node2level i =>
  while_ (S (S n))
         (fun '(stop, node, level, node2level) => t <- rd tree node ;; Ok (negb stop && (0 <=? t)%Z))
         (fun '(_, node, level, node2level) =>
            t <- rd tree node ;;
            let node := Z.to_nat t in
            let level := S level in
            o <- rd node2level node ;;
            if level <? o then Ok (true, node, level, node2level)
            else node2level <- wr node2level node level ;; Ok (false, node, level, node2level))
         (false, i, 0, node2level).

Lemma walk_up_wp i n2l (Q : bool * nat * nat * list nat -> Prop) : leaf i -> lev_inv i 0 n2l ->
  (forall b node level n2l', lev_inv (S i) 0 n2l' -> chain E i node level -> (forall v, n2l'.[v] <= n2l.[v] \/ n2l'.[v] <= level) -> (forall v, n2l.[v] <= n2l'.[v]) -> Q (b, node, level, n2l')) ->
  wp (walk_up n2l i) Q.
Proof.
  intros HL HI HQ. unfold walk_up. pose proof (proj1 FO) as TL.
  apply (wp_while (fun '(stop, node, level, n2l') => chain E i node level /\ (forall v, n2l'.[v] <= n2l.[v] \/ n2l'.[v] <= level) /\ (forall v, n2l.[v] <= n2l'.[v]) /\ lev_inv i level n2l' /\
     (if stop : bool then forall v k, chain E i v k -> k <= n2l'.[v] else True))
     (fun '(stop, node, level, n2l') => if stop : bool then 0 else S n - level)).
  - splits; auto; try constructor.
  - lia.
  - intros [[[stop node] level] n2'] (C & B1 & B2 & I & ST). assert (Hn : node < n) by (apply (chain_end_lt i node level); [apply HL|auto]).
    assert (Hlv : level < n) by (apply (chain_short i node); [apply HL|auto]).
    wp1. wp1; [lia|]. wp1. destruct stop; cbn [negb andb].
    + apply HQ; auto. eapply lev_inv_next; eauto. intros u v k H1 H2 H3. destruct (Nat.eq_dec u i) as [->|]; [eauto|]. apply I with (u := u); auto. lia.
    + destruct (Z.leb_spec 0 tree.[node]) as [Hp|Hp].
      2:{ apply HQ; auto. eapply lev_inv_next; eauto. intros u v k H1 H2 H3. apply I with (u := u); auto. destruct (Nat.eq_dec u i) as [->|]; [|lia]. right. split; auto.
          destruct (le_lt_dec k level) as [|Hk]; auto. exfalso. pose proof (chain_rest i node v level k C H2 ltac:(lia)) as H. replace (k - level) with (S (k - level - 1)) in H by lia.
          apply chain_uncons in H. destruct H as (w & H & _). now apply (te_root node w) in H. }
      wp1. wp1; [lia|]. cbv zeta. pose proof (te_parent node Hn Hp) as EP. set (p := Z.to_nat tree.[node]) in *. assert (Hp' : p < n) by (now apply te_lt in EP).
      destruct I as (I1 & I2 & I3). wp1. wp1; [lia|].
      assert (CP : chain E i p (S level)) by (econstructor; eauto).
      destruct (Nat.ltb_spec (S level) n2'.[p]) as [Hlt|Hge]; wp1; [|wp1; [lia|wp1]].
      * assert (ALL : forall v k, chain E i v k -> k <= n2'.[v]).
        { intros v k Hk. destruct (le_lt_dec k level) as [|Hk']; [apply I2 with (u := i); auto|].
          destruct (I3 p Hp') as [I3p|(u & U1 & U2 & U3)]; [lia|]. assert (u < i) by lia.
          pose proof (chain_rest i p v (S level) k CP Hk ltac:(lia)) as H'. pose proof (chain_app E u p v _ _ U2 H') as H''. apply I2 with (u := u) in H''; auto. lia. }
        unfold lev_inv; splits; auto; try lia.
        { intros v. destruct (B1 v); auto. }
        { intros u v k H1 H2 H3. destruct (Nat.eq_dec u i) as [->|]; [eauto|]. apply I2 with (u := u); auto. lia. }
        { intros v Hv. destruct (I3 v Hv) as [I3p|(u & U1 & U2 & U3)]; auto. right. exists u. splits; auto. lia. }
      * unfold lev_inv; splits; auto; try lia.
        { intros v. destruct (Nat.eq_dec v p) as [->|]; [rewrite aget_upd_eq by lia; lia|rewrite aget_upd_ne by lia]. destruct (B1 v); auto. }
        { intros v. destruct (Nat.eq_dec v p) as [->|]; [rewrite aget_upd_eq by lia; specialize (B2 p); lia|rewrite aget_upd_ne by lia; auto]. }
        { now rewrite upd_length. }
        { intros u v k H1 H2 H3. destruct (Nat.eq_dec v p) as [->|].
          - rewrite aget_upd_eq by lia. destruct H3 as [H3|[H3 H3']]; [|auto]. specialize (I2 u p k H1 H2 (or_introl H3)). lia.
          - rewrite aget_upd_ne by lia. apply I2 with (u := u); auto. destruct H3 as [|[-> H3]]; auto. right. split; auto. destruct (Nat.eq_dec k (S level)) as [->|]; [|lia].
            pose proof (chain_rest i p v _ _ CP H2 ltac:(lia)) as H'. rewrite Nat.sub_diag in H'. inversion H'. congruence. }
        { intros v Hv. destruct (Nat.eq_dec v p) as [->|].
          - rewrite aget_upd_eq by lia. right. exists i. splits; auto.
          - rewrite aget_upd_ne by lia. destruct (I3 v Hv) as [I3p|(u & U1 & U2 & U3)]; auto. right. exists u. splits; auto. lia. }
Qed.

Lemma leaf_dec u : {leaf u} + {~ leaf u}.
Proof. unfold leaf. destruct (lt_dec u n); [|right; intros []; lia]. destruct (children n tree u); [left; auto|right; intros []; discriminate]. Qed.

Definition lfb (u : nat) : bool := nChild.[u] =? 0.

(** the result: the levels are the depths, sorted by level and then by index *)
Definition lev_result (levelPtr levelSet node2level : list nat) (k : nat) (lp ls n2l : list nat) : Prop :=
  length lp = length levelPtr /\ length ls = length levelSet /\ length n2l = n /\
  (forall v, v < n -> depth_is E v n2l.[v]) /\ (forall v, v < n -> n2l.[v] < k) /\ (exists v, v < n /\ S n2l.[v] = k) /\ k <= n /\
  (forall l, l <= k -> lp.[l] = cbase n (aget n2l) l) /\ (forall l, k < l -> lp.[l] = levelPtr.[l]) /\
  (forall v, v < n -> ls.[cpos n (aget n2l) v] = v).

Lemma build_levels_wp levelPtr levelSet (Q : nat * (list nat * list nat * list nat) -> Prop) : 2 <= n ->
  n < length levelPtr -> n <= length levelSet -> levelPtr.[0] = 0 -> levelPtr.[1] = 0 ->
  (forall k lp ls n2l, lev_result levelPtr levelSet (repeat 0 n) k lp ls n2l -> Q (k, (lp, ls, n2l))) ->
  wp (build_level_set_tree_efficient n tree nChild levelPtr levelSet (repeat 0 n)) Q.
Proof.
  intros Hn H1 H2 H3 H3' HQ. unfold build_level_set_tree_efficient. destruct NC as [NC1 NC2].
  wp1. apply (wp_for (fun i '(maxLen, lp, ls, n2l) => lev_inv i 0 n2l /\ (forall v, n2l.[v] <= maxLen) /\ (maxLen = 0 \/ exists u v, u < n /\ v < n /\ chain E u v maxLen) /\
     length lp = length levelPtr /\ length ls = length levelSet /\ lp.[1] = cnt 0 i lfb /\ (forall k, k <> 1 -> lp.[k] = levelPtr.[k]) /\
     (forall v, v < i -> lfb v = true -> ls.[cnt 0 v lfb] = v))).
  { lia. }
  { assert (R0 : forall v, (repeat 0 n).[v] = 0).
    { intros v. destruct (le_lt_dec n v); [now rewrite aget_overflow by (rewrite repeat_length; lia)|now rewrite aget_repeat by lia]. }
    splits; auto; try lia.
    - split; [now rewrite repeat_length|]. split; [|auto]. intros u v k L C [H|[H ]]; lia.
    - intros v. now rewrite R0. }
  { intros i [[[mx lp] ls] n2l] Hi (I1 & I2 & I3 & I4 & I5 & I6 & I7 & I8). wp1. wp1; [lia|].
    assert (ELF : (nChild.[i] =? 0) = lfb i) by reflexivity. rewrite ELF. destruct (lfb i) eqn:Elf.
    - assert (HL : leaf i) by (apply nc_leaf; [lia|]; unfold lfb in Elf; lia).
      pose proof (cnt_le 0 i lfb). wp1. wp1; [lia|]. wp1. wp1; [lia|]. wp1. wp1; [lia|]. wp1. apply walk_up_wp; auto.
      intros b node level n2' J1 J2 J3 J4. cbv beta iota. wp1.
      assert (Hnode : node < n) by (apply (chain_end_lt i node level); [lia|auto]).
      splits; rewrite ?upd_length; auto.
      + intros v. specialize (I2 v). destruct (J3 v), (Nat.ltb_spec mx level); lia.
      + destruct (Nat.ltb_spec mx level); auto. right. exists i, node. splits; auto. lia.
      + rewrite aget_upd_eq by lia. rewrite cnt_S by lia. rewrite Elf. simpl. lia.
      + intros k Hk. rewrite aget_upd_ne by lia. auto.
      + intros v Hv Ev. destruct (Nat.eq_dec v i) as [->|].
        * rewrite I6. rewrite aget_upd_eq by lia. auto.
        * rewrite aget_upd_ne; [apply I8; auto; lia|]. rewrite I6. rewrite (cnt_split 0 (S v) i) by lia. rewrite cnt_S by lia. rewrite Ev. simpl. lia.
    - wp1. splits; auto.
      + apply lev_inv_skip; auto. intros HL. apply nc_leaf in HL; [|lia]. unfold lfb in Elf. lia.
      + rewrite cnt_S by lia. rewrite Elf. simpl. lia.
      + intros v Hv Ev. apply I8; auto. destruct (Nat.eq_dec v i) as [->|]; [congruence|lia]. }
  intros [[[mx lp] ls] n2l] (I1 & I2 & I3 & I4 & I5 & I6 & I7 & I8). destruct I1 as (L1 & L2 & L3).
  assert (DI : forall v, v < n -> depth_is E v n2l.[v]).
  { intros v Hv. split.
    - destruct (L3 v Hv) as [->|(u & _ & U & _)]; [exists v; constructor|eauto].
    - intros u k Hk. destruct k as [|k]; [lia|]. assert (Hu : u < n) by (apply chain_uncons in Hk; destruct Hk as (w & A & _); now apply te_lt in A).
      destruct (leaf_chain u v _ Hu Hk) as (l & k' & A & B & C). apply L2 with (u := l) in B; auto; [lia|]. left. apply A. }
  assert (Hmx : mx < n) by (destruct I3 as [->|(u & v & Hu & Hv & C)]; [lia|apply (chain_short u v); auto]).
  assert (Hatt : exists v, v < n /\ n2l.[v] = mx).
  { destruct I3 as [->|(u & v & Hu & Hv & C)].
    - exists 0. split; [lia|]. specialize (I2 0). lia.
    - exists v. split; auto. destruct (DI v Hv) as [_ D]. apply D in C. specialize (I2 v). lia. }
  assert (LZ : forall v, v < n -> (n2l.[v] =? 0) = lfb v).
  { intros v Hv. unfold lfb. destruct (Nat.eqb_spec nChild.[v] 0) as [E0|E0].
    - apply nc_leaf in E0; auto. destruct (DI v Hv) as [[u Hc] _]. inversion Hc as [|? w ? ? C1 C2]; subst; [apply Nat.eqb_refl|]. exfalso. now apply (leaf_no_in w v).
    - rewrite NC2 in E0 by auto. destruct (children n tree v) as [|c l] eqn:Ec; [easy|].
      assert (Hc : In c (children n tree v)) by (rewrite Ec; now left). unfold children in Hc. apply filter_In in Hc. destruct Hc as [A B]. apply in_seq in A. apply Z.eqb_eq in B.
      destruct (DI v Hv) as [_ D]. assert (1 <= n2l.[v]); [|lia]. apply (D c). apply chain_one. split; [lia|auto]. }
  assert (CB1 : cbase n (aget n2l) 1 = cnt 0 n lfb).
  { unfold cbase. apply cnt_ext. intros i Hi. rewrite <- LZ by lia. lia. }
  cbv zeta. wp1.
  apply (wp_for (fun j cn => length cn = n /\ forall l, l < n -> cn.[l] = cnt 0 j (fun v => n2l.[v] =? l))).
  { lia. }
  { split; [apply repeat_length|]. intros l Hl. now rewrite aget_repeat. }
  { intros j cn Hj (J1 & J2). specialize (I2 j). wp1. wp1; [lia|]. wp1. wp1; [lia|]. wp1; [lia|]. rewrite upd_length. split; auto.
    intros l Hl. rewrite cnt_S by lia. destruct (Nat.eq_dec l n2l.[j]) as [->|].
    - rewrite aget_upd_eq by lia. rewrite J2 by lia. rewrite Nat.eqb_refl. simpl. lia.
    - rewrite aget_upd_ne by lia. rewrite J2 by lia. destruct (Nat.eqb_spec n2l.[j] l); [congruence|]. simpl. lia. }
  intros cn (CN1 & CN2). wp1.
  apply (wp_for (fun k '(lp', cn') => length lp' = length levelPtr /\ length cn' = n /\ (forall l, l < k -> lp'.[l] = cbase n (aget n2l) l) /\ (forall l, k <= l -> lp'.[l] = lp.[l]) /\
     (forall l, 1 <= l < k - 1 -> cn'.[l] = 0) /\ (forall l, k - 1 <= l < n -> cn'.[l] = cn.[l]))).
  { lia. }
  { splits; auto; try lia. intros l Hl. destruct l as [|[|l]]; [rewrite cbase_0; rewrite I7 by lia; auto|rewrite CB1; auto|lia]. }
  { intros k [lp' cn'] Hk (J1 & J2 & J3 & J4 & J5 & J6). wp1. wp1; [lia|]. wp1. wp1; [lia|]. wp1. wp1; [lia|]. wp1. wp1; [lia|]. wp1. rewrite !upd_length. splits; auto.
    - intros l Hl. destruct (Nat.eq_dec l k) as [->|]; [|rewrite aget_upd_ne by lia; apply J3; lia].
      rewrite aget_upd_eq by lia. rewrite J3 by lia. rewrite J6 by lia. rewrite CN2 by lia. rewrite <- cbase_S. f_equal. lia.
    - intros l Hl. rewrite aget_upd_ne by lia. apply J4. lia.
    - intros l Hl. destruct (Nat.eq_dec l (k - 1)) as [->|]; [now rewrite aget_upd_eq by lia|]. rewrite aget_upd_ne by lia. apply J5. lia.
    - intros l Hl. rewrite aget_upd_ne by lia. apply J6. lia. }
  intros [lp' cn'] (J1 & J2 & J3 & J4 & J5 & J6). wp1. wp1; [lia|]. wp1.
  apply (wp_for (fun i '(ls', c) => length ls' = length levelSet /\ length c = n /\ (forall l, 1 <= l <= mx -> c.[l] = cnt 0 i (fun v => n2l.[v] =? l)) /\
     (forall v, v < n -> n2l.[v] = 0 \/ v < i -> ls'.[cpos n (aget n2l) v] = v))).
  { lia. }
  { splits; auto.
    - now rewrite upd_length.
    - intros l Hl. destruct (Nat.eq_dec l 1) as [->|]; [rewrite aget_upd_eq by lia; reflexivity|]. rewrite aget_upd_ne by lia. rewrite J5 by lia. reflexivity.
    - intros v Hv [H0|]; [|lia]. unfold cpos. rewrite H0. rewrite cbase_0. simpl. rewrite (cnt_ext 0 v _ lfb) by (intros; apply LZ; lia). apply I8; auto. rewrite <- LZ by auto. lia. }
  { intros i [ls' c] Hi (M1 & M2 & M3 & M4). wp1. wp1; [lia|]. destruct (Nat.eqb_spec n2l.[i] 0) as [H0|H0].
    - wp1. splits; auto.
      + intros l Hl. rewrite cnt_S by lia. rewrite M3 by auto. destruct (Nat.eqb_spec n2l.[i] l); [lia|]. simpl. lia.
      + intros v Hv Hv'. apply M4; auto. destruct (Nat.eq_dec v i) as [->|]; [auto|lia].
    - pose proof (I2 i) as Hm. pose proof (cpos_lt n (aget n2l) i ltac:(lia)) as CL.
      assert (EP : lp'.[n2l.[i]] + c.[n2l.[i]] = cpos n (aget n2l) i) by (rewrite J3, M3 by lia; reflexivity).
      wp1. wp1; [lia|]. wp1. wp1; [lia|]. wp1. rewrite EP. wp1; [lia|]. wp1. wp1; [lia|]. wp1. rewrite !upd_length. splits; auto.
      + intros l Hl. rewrite cnt_S by lia. destruct (Nat.eq_dec l n2l.[i]) as [->|].
        * rewrite aget_upd_eq by lia. rewrite M3 by lia. rewrite Nat.eqb_refl. simpl. lia.
        * rewrite aget_upd_ne by lia. rewrite M3 by lia. destruct (Nat.eqb_spec n2l.[i] l); [congruence|]. simpl. lia.
      + intros v Hv Hv'. destruct (Nat.eq_dec v i) as [->|].
        * now rewrite aget_upd_eq by lia.
        * rewrite aget_upd_ne; [apply M4; auto; lia|]. intros X. apply cpos_inj in X; auto; lia. }
  intros [ls' c] (M1 & M2 & M3 & M4). wp1. apply HQ. unfold lev_result. splits; auto.
  - intros v Hv. specialize (I2 v). lia.
  - destruct Hatt as (v & A & B). exists v. split; auto.
  - intros l Hl. apply J3. lia.
  - intros l Hl. rewrite J4 by lia. destruct (Nat.eq_dec l 1); [lia|apply I7; auto].
Qed.

(** with at most one node the write of level_cnt[1] is out of bounds *)
Lemma build_levels_small levelPtr levelSet : n <= 1 -> n < length levelPtr -> n <= length levelSet ->
  build_level_set_tree_efficient n tree nChild levelPtr levelSet (repeat 0 n) = Err OOB.
Proof.
  intros Hn H1 H2. destruct NC as [NC1 NC2]. destruct (Nat.eq_dec n 0) as [E0|E0].
  - rewrite E0. reflexivity.
  - assert (E1 : n = 1) by lia. unfold build_level_set_tree_efficient.
    assert (T0 : (tree.[0] < 0)%Z).
    { destruct (Z.ltb_spec tree.[0] 0); auto. exfalso. pose proof (te_parent 0 ltac:(lia) ltac:(lia)) as P. pose proof (te_lt _ _ P).
      replace (Z.to_nat tree.[0]) with 0 in P by lia. apply (te_acyclic 0 0). now apply chain_one. }
    assert (C0 : nChild.[0] = 0).
    { apply nc_leaf; [lia|]. destruct (leaf_below 0 ltac:(lia)) as (l & k & A & B). replace 0 with l; auto. destruct A. lia. }
    rewrite !E1. unfold for_ at 1. cbn [for_n Nat.sub]. rewrite (rd_ok nChild 0) by lia. rewrite C0. cbn [bind Nat.eqb].
    rewrite (rd_ok levelPtr 1) by lia. cbn [bind]. destruct (le_lt_dec (length levelSet) levelPtr.[1]) as [L|L]; [rewrite wr_oob by auto; reflexivity|].
    rewrite wr_ok by auto. cbn [bind]. rewrite wr_ok by lia. cbn [bind while_]. rewrite rd_ok by (destruct FO; lia). cbn [bind negb andb].
    destruct (Z.leb_spec 0 tree.[0]); [lia|]. reflexivity.
Qed.

End Levels.

(** * The levels exist; the round-based version *)

Section Rounds.
Variables (n : nat) (tree : list Z).
Hypothesis FO : forest n tree.
Notation E := (tree_edge n tree).

Lemma heights_exist : exists h : list nat, forall v, v < n -> depth_is E v h.[v].
Proof.
  destruct (le_lt_dec 2 n) as [Hn|Hn].
  - pose (nc := map (fun u => length (children n tree u)) (seq 0 n)).
    assert (G : wp (build_level_set_tree_efficient n tree nc (repeat 0 (S n)) (repeat 0 n) (repeat 0 n)) (fun r => exists h, forall v, v < n -> depth_is E v h.[v])).
    { apply build_levels_wp; auto; rewrite ?repeat_length; auto.
      - split; [unfold nc; now rewrite map_length, seq_length|]. intros u Hu. unfold nc. now rewrite aget_map_seq.
      - rewrite aget_repeat; lia.
      - intros k lp ls n2l R. exists n2l. apply R. }
    apply wp_ok in G. now destruct G as (a & _ & G).
  - exists [0]. intros v Hv. replace v with 0 by lia. split; [exists 0; constructor|]. intros u k Hk. destruct k as [|k]; [lia|].
    assert (Hu : u < n) by (apply chain_uncons in Hk; destruct Hk as (w & A & _); now apply te_lt in A).
    pose proof (chain_short n tree FO u 0 _ Hu Hk). lia.
Qed.

Variable h : list nat.
Hypothesis HD : forall v, v < n -> depth_is E v h.[v].

Lemma h_child c p : E c p -> h.[c] < h.[p].
Proof.
  intros HE. pose proof (te_lt n tree c p HE) as [Hc Hp]. destruct (HD c Hc) as [[u C] _]. destruct (HD p Hp) as [_ D].
  specialize (D u (S h.[c])). apply D. econstructor; eauto.
Qed.

Lemma h_pred p : p < n -> 0 < h.[p] -> exists c, E c p /\ S h.[c] = h.[p].
Proof.
  intros Hp H0. destruct (HD p Hp) as [[u C] D]. inversion C as [|? c ? k C1 C2]; subst; [lia|]. exists c. split; auto.
  pose proof (te_lt n tree c p C2) as [Hc _]. destruct (HD c Hc) as [_ D']. pose proof (D' u k C1). pose proof (h_child c p C2). lia.
Qed.

Lemma h_lt v : v < n -> h.[v] < n.
Proof. intros Hv. destruct (HD v Hv) as [[u C] _]. destruct h.[v] as [|k] eqn:Eh; [lia|]. apply (chain_short n tree FO u v); auto. apply chain_uncons in C. destruct C as (w & A & _). now apply te_lt in A. Qed.

(** levels below a level are not empty *)
Lemma h_down v l : v < n -> l <= h.[v] -> exists w, w < n /\ h.[w] = l.
Proof.
  intros Hv. remember (h.[v] - l) as m eqn:Em. revert v Hv Em. induction m as [|m IH]; intros v Hv Em Hl.
  - exists v. split; auto. lia.
  - destruct (h_pred v Hv ltac:(lia)) as (c & HE & Hc). apply (IH c); [now apply te_lt in HE|lia|lia].
Qed.

Notation key := (key n tree).
Notation cpos := (cpos n (aget h)).
Notation cbase := (cbase n (aget h)).

Lemma PA : parent_array n tree.
Proof. destruct FO as (A & B & _). split; auto. intros l Hl. specialize (B l Hl). lia. Qed.

Lemma key_edge c p : c < n -> p < n -> (key c =? p) = true <-> E c p.
Proof. intros Hc Hp. rewrite key_parent by auto. rewrite Z.eqb_eq. unfold tree_edge. intuition. Qed.

(** the children of [p] placed at position [l] or later *)
Definition rest (l p : nat) : nat := cnt 0 n (fun c => (key c =? p) && (l <=? cpos c)).

Lemma cpos_ge l c : c < n -> (cbase l <=? cpos c) = (l <=? h.[c]).
Proof.
  intros Hc. pose proof (cpos_lo n (aget h) c). pose proof (cpos_hi n (aget h) c Hc). destruct (Nat.leb_spec l h.[c]) as [L|L].
  - pose proof (cbase_mono n (aget h) l h.[c] L). apply Nat.leb_le. lia.
  - pose proof (cbase_mono n (aget h) (S h.[c]) l L). apply Nat.leb_gt. lia.
Qed.

Lemma rest_zero l p : p < n -> rest (cbase l) p = 0 <-> h.[p] <= l.
Proof.
  intros Hp. unfold rest. split; intros H.
  - destruct (le_lt_dec h.[p] l) as [|L]; auto. exfalso. destruct (h_pred p Hp ltac:(lia)) as (c & HE & Hc). pose proof (te_lt n tree c p HE) as [Hcn _].
    pose proof (cnt_zero _ _ _ H c ltac:(lia)) as G. cbv beta in G. rewrite cpos_ge in G by auto. apply (key_edge c p) in HE; auto. rewrite HE in G. simpl in G. apply Nat.leb_gt in G. lia.
  - apply cnt_all_false. intros c Hc. rewrite cpos_ge by lia. destruct (key c =? p) eqn:Ek; auto. apply key_edge in Ek; [|lia|auto]. apply h_child in Ek. simpl. apply Nat.leb_gt. lia.
Qed.

Lemma rest_step l c p : c < n -> p < n -> cpos c = l -> rest l p = rest (S l) p + b2n (key c =? p).
Proof.
  intros Hc Hp El. unfold rest. destruct (key c =? p) eqn:Ek; cbn [b2n].
  - rewrite Nat.add_comm. apply (cnt_upd_true 0 n _ _ c); cbv beta; rewrite ?Ek; cbn [andb]; try lia.
    + intros i Hi Hne. cbv beta. f_equal. assert (cpos i <> cpos c) by (intros X; apply cpos_inj in X; auto; lia). lia.
  - rewrite Nat.add_0_r. apply cnt_ext. intros i Hi. destruct (Nat.eq_dec i c) as [->|]; [now rewrite Ek|]. f_equal. assert (cpos i <> cpos c) by (intros X; apply cpos_inj in X; auto; lia). lia.
Qed.

Lemma rest_0 p : rest 0 p = cnt 0 n (fun c => key c =? p).
Proof. apply cnt_ext. intros i _. now rewrite andb_true_r. Qed.

Lemma count_children_wp (Q : list Z -> Prop) :
  (forall nc, length nc = n -> (forall p, p < n -> nc.[p] = Z.of_nat (rest 0 p)) -> Q nc) ->
  wp (for_ 0 n (fun k nc => p <- rd tree k ;;
    if (0 <=? p)%Z then c <- rdZ nc p ;; wrZ nc p (c + 1)%Z else Ok nc) (repeat 0%Z n)) Q.
Proof.
  intros HQ. pose proof (proj1 FO) as TL.
  apply (wp_for (fun i nc => length nc = n /\ forall p, p < n -> nc.[p] = Z.of_nat (cnt 0 i (fun c => key c =? p)))).
  - lia.
  - split; [apply repeat_length|]. intros p Hp. now rewrite aget_repeat.
  - intros i nc Hi (A & B). wp1. wp1; [lia|]. destruct (Z.leb_spec 0 tree.[i]) as [H0|H0].
    + destruct (key_lt n tree PA i ltac:(lia) H0) as [K1 K2]. wp1. apply rdZ_wp; [auto|lia|]. apply wrZ_wp; [auto|lia|]. rewrite upd_length. split; auto. rewrite K2.
      intros p Hp. rewrite cnt_S by lia. rewrite aget_upd by lia. rewrite (Nat.eqb_sym (key i) p). destruct (Nat.eqb_spec p (key i)) as [->|]; rewrite ?B by auto; simpl; lia.
    + wp1. split; auto. intros p Hp. rewrite cnt_S by lia. rewrite key_root by auto. destruct (Nat.eqb_spec n p); [lia|]. rewrite B by auto. simpl. lia.
  - intros nc (A & B). apply HQ; auto. intros p Hp. rewrite rest_0. auto.
Qed.

Lemma rounds_wp levelPtr levelSet (Q : nat * (list nat * list nat) -> Prop) : n < length levelPtr -> n <= length levelSet ->
  (forall k lp ls, length lp = length levelPtr -> length ls = length levelSet -> (forall v, v < n -> h.[v] < k) -> (0 < n -> exists v, v < n /\ S h.[v] = k) -> (n = 0 -> k = 0) ->
     (forall l, l <= k -> lp.[l] = cbase l) -> (forall l, k < l -> lp.[l] = levelPtr.[l]) -> (forall v, v < n -> ls.[cpos v] = v) -> Q (k, (lp, ls))) ->
  wp (build_level_set_tree n tree levelPtr levelSet) Q.
Proof.
  intros H1 H2 HQ. unfold build_level_set_tree. pose proof (proj1 FO) as TL. wp1. apply count_children_wp. intros nc0 N1 N2. wp1. wp1; [lia|]. wp1.
  destruct (Nat.eq_dec n 0) as [E0|E0].
  { rewrite E0 at 1. cbn [while_ bind]. rewrite E0. cbn. apply HQ; rewrite ?upd_length; auto; try lia.
    - intros l Hl. replace l with 0 by lia. rewrite aget_upd_eq by lia. rewrite cbase_0. auto.
    - intros l Hl. rewrite aget_upd_ne by lia. auto. }
  set (I := fun (b : nat) (e : nat) (nc : list Z) (cur cn : nat) (lp ls : list nat) (vis : list bool) =>
     b <= e /\ e < n /\ (forall v, v < n -> v < b \/ e < v -> h.[v] < cur) /\ length nc = n /\ (forall p, p < n -> nc.[p] = Z.of_nat (rest (cbase cur) p)) /\
     length vis = n /\ (forall v, v < n -> vis.[v] = (h.[v] <? cur)) /\ cn = cbase cur /\ length lp = length levelPtr /\ length ls = length levelSet /\
     (forall l, l <= cur -> lp.[l] = cbase l) /\ (forall l, cur < l -> lp.[l] = levelPtr.[l]) /\ (forall v, v < n -> h.[v] < cur -> ls.[cpos v] = v)).
  apply (wp_while (fun '(stop, bz, ez, nc, cur, cn, lp, ls, vis) => if stop : bool then
        length lp = length levelPtr /\ length ls = length levelSet /\ (forall v, v < n -> h.[v] < cur) /\ (exists v, v < n /\ S h.[v] = cur) /\
        (forall l, l <= cur -> lp.[l] = cbase l) /\ (forall l, cur < l -> lp.[l] = levelPtr.[l]) /\ (forall v, v < n -> ls.[cpos v] = v)
      else (exists v, v < n /\ cur <= h.[v]) /\ exists b e, bz = Z.of_nat b /\ ez = Z.of_nat e /\ I b e nc cur cn lp ls vis)
    (fun '(stop, bz, ez, nc, cur, cn, lp, ls, vis) => if stop : bool then 0 else n - cur)).
  { split; [exists 0; lia|]. exists 0, (n - 1). splits; try lia. unfold I. rewrite cbase_0. rewrite upd_length. splits; auto; try lia.
    - apply repeat_length.
    - intros v Hv. rewrite aget_repeat by auto. symmetry. apply Nat.ltb_ge. lia.
    - intros l Hl. replace l with 0 by lia. rewrite aget_upd_eq by lia. now rewrite cbase_0.
    - intros l Hl. rewrite aget_upd_ne by lia. auto. }
  { lia. }
  intros [[[[[[[[stop bz] ez] nc] cur] cn] lp] ls] vis]. destruct stop; cbn [negb andb].
  { intros (A & B & C & D & F & G & K). wp1. apply HQ; auto. intros; lia. }
  intros ((w & Hw & Hwc) & b & e & -> & -> & I1 & I2 & I3 & I4 & I5 & I6 & I7 & I8 & I9 & I10 & I11 & I12 & I13).
  pose proof (h_lt w Hw) as Hwn. wp1. destruct (Z.leb_spec (Z.of_nat b) (Z.of_nat e)); [|lia].
  rewrite Nat2Z.id. replace (Z.to_nat (Z.of_nat e + 1)) with (S e) by lia. wp1.
  apply (wp_for (fun i '(cn', ls', vis') => cn' = cbase cur + cnt 0 i (fun j => h.[j] =? cur) /\ length ls' = length levelSet /\ length vis' = n /\
     (forall v, v < n -> vis'.[v] = (h.[v] <? cur) || ((h.[v] =? cur) && (v <? i))) /\ (forall v, v < n -> h.[v] < cur \/ (h.[v] = cur /\ v < i) -> ls'.[cpos v] = v))).
  { lia. }
  { splits; auto.
    - rewrite I8. rewrite (cnt_all_false 0 b); [lia|]. intros v Hv. specialize (I3 v ltac:(lia) ltac:(lia)). apply Nat.eqb_neq. lia.
    - intros v Hv. rewrite I7 by auto. destruct (h.[v] <? cur) eqn:E1; simpl; auto. destruct (Nat.ltb_spec v b); [specialize (I3 v Hv ltac:(lia)); lia|]. now rewrite andb_false_r.
    - intros v Hv [|[]]; [auto|]. apply I13; [auto|]. apply I3; [auto|lia]. }
  { intros i [[cn' ls'] vis'] Hi (J1 & J2 & J3 & J4 & J5). wp1. wp1; [lia|]. rewrite I5 by lia. destruct (Z.eqb_spec (Z.of_nat (rest (cbase cur) i)) 0) as [Z0|Z0].
    - assert (Hz : h.[i] <= cur) by (apply rest_zero; lia). wp1. wp1; [lia|]. rewrite J4 by lia. destruct (Nat.ltb_spec i i); [lia|]. rewrite andb_false_r, orb_false_r. destruct (Nat.ltb_spec h.[i] cur) as [L|L].
      + wp1. splits; auto.
        * rewrite cnt_S by lia. destruct (Nat.eqb_spec h.[i] cur); [lia|]. simpl. lia.
        * intros v Hv. rewrite J4 by auto. destruct (Nat.eq_dec v i) as [->|]; [|f_equal; f_equal; lia]. destruct (Nat.ltb_spec h.[i] cur); [auto|lia].
        * intros v Hv Hv'. apply J5; auto. destruct (Nat.eq_dec v i) as [->|]; lia.
      + assert (EQ : h.[i] = cur) by lia. assert (EP : cn' = cpos i) by (unfold Lib2.cpos; rewrite EQ; exact J1).
        pose proof (cpos_lt n (aget h) i ltac:(lia)). wp1. wp1; [lia|]. wp1. rewrite EP. wp1; [lia|]. wp1. rewrite !upd_length. splits; auto.
        * rewrite cnt_S by lia. rewrite EQ, Nat.eqb_refl. simpl. lia.
        * intros v Hv. destruct (Nat.eq_dec v i) as [->|].
          -- rewrite aget_upd_eq by lia. rewrite EQ, Nat.eqb_refl. destruct (Nat.ltb_spec i (S i)); [|lia]. now rewrite orb_true_r.
          -- rewrite aget_upd_ne by lia. rewrite J4 by auto. f_equal. f_equal. lia.
        * intros v Hv Hv'. destruct (Nat.eq_dec v i) as [->|].
          -- now rewrite aget_upd_eq by lia.
          -- rewrite aget_upd_ne by (intros X; apply cpos_inj in X; auto; lia). apply J5; auto. lia.
    - assert (Hz : cur < h.[i]) by (pose proof (rest_zero cur i ltac:(lia)); lia). wp1. splits; auto.
      + rewrite cnt_S by lia. destruct (Nat.eqb_spec h.[i] cur); [lia|]. simpl. lia.
      + intros v Hv. rewrite J4 by auto. destruct (Nat.eq_dec v i) as [->|]; [|f_equal; f_equal; lia]. destruct (Nat.ltb_spec h.[i] cur); [lia|]. destruct (Nat.eqb_spec h.[i] cur); [lia|auto].
      + intros v Hv Hv'. apply J5; auto. destruct (Nat.eq_dec v i) as [->|]; lia. }
  intros [[cn' ls'] vis'] (J1 & J2 & J3 & J4 & J5). cbv zeta beta iota.
  assert (CN : cn' = cbase (S cur)).
  { rewrite cbase_S, J1. f_equal. rewrite (cnt_split 0 (S e) n) by lia. rewrite (cnt_all_false (S e) n); [lia|]. intros v Hv. specialize (I3 v ltac:(lia) ltac:(lia)). apply Nat.eqb_neq. lia. }
  assert (V' : forall v, v < n -> vis'.[v] = (h.[v] <? S cur)).
  { intros v Hv. rewrite J4 by auto. destruct (le_lt_dec v e); [|specialize (I3 v Hv ltac:(lia))]; lia. }
  assert (L' : forall v, v < n -> h.[v] < S cur -> ls'.[cpos v] = v).
  { intros v Hv Hh. apply J5; auto. destruct (le_lt_dec v e); [|specialize (I3 v Hv ltac:(lia))]; lia. }
  clear J1 J4 J5. wp1. wp1; [lia|].
  assert (LP : forall l, l <= S cur -> (upd lp (S cur) cn').[l] = cbase l).
  { intros l Hl. destruct (Nat.eq_dec l (S cur)) as [->|]; [rewrite aget_upd_eq by lia; auto|]. rewrite aget_upd_ne by lia. apply I11. lia. }
  assert (LP' : forall l, S cur < l -> (upd lp (S cur) cn').[l] = levelPtr.[l]) by (intros l Hl; rewrite aget_upd_ne by lia; apply I12; lia).
  destruct (Nat.eqb_spec cn' n) as [EN|EN].
  - wp1. assert (AL : forall v, v < n -> h.[v] < S cur).
    { intros v Hv. rewrite CN in EN. unfold Lib2.cbase in EN. rewrite <- (Nat.sub_0_r n) in EN at 2. pose proof (cnt_full _ _ _ EN v ltac:(lia)) as G. cbv beta in G. lia. }
    splits; rewrite ?upd_length; auto; [|lia]. destruct (h_down w cur Hw Hwc) as (x & A & B). exists x. split; auto.
  - assert (W2 : exists x, x < n /\ S cur <= h.[x]).
    { destruct (cnt 0 n (fun v => S cur <=? h.[v])) as [|m] eqn:Ec.
      - exfalso. apply EN. rewrite CN. apply cbase_all. intros v Hv. pose proof (cnt_zero _ _ _ Ec v ltac:(lia)) as G. cbv beta in G. lia.
      - destruct (cnt_pos 0 n (fun v => S cur <=? h.[v]) ltac:(lia)) as (x & A & B). exists x. split; [lia|]. lia. }
    destruct W2 as (x & Hx & Hxc). assert (XB : b <= x <= e) by (destruct (le_lt_dec b x); [destruct (le_lt_dec x e); [lia|]|]; specialize (I3 x Hx ltac:(lia)); lia).
    assert (NZ : forall v, v < n -> nc.[v] = 0%Z <-> h.[v] < S cur) by (intros v Hv; rewrite I5 by auto; pose proof (rest_zero cur v Hv); lia).
    wp1. apply (wp_while (fun z => exists b', z = Z.of_nat b' /\ b <= b' <= x /\ forall v, v < b' -> h.[v] < S cur) (fun z => n - Z.to_nat z)).
    { exists b. splits; auto; try lia. intros v Hv. specialize (I3 v ltac:(lia) ltac:(lia)). lia. }
    { lia. }
    intros z (b' & -> & B1 & B2). wp1. apply rdZ_wp; [lia|lia|]. rewrite Nat2Z.id. wp1. destruct (Z.eqb_spec nc.[b'] 0) as [Z0|Z0].
    { apply NZ in Z0; [|lia]. wp1. split; [|lia]. exists (S b'). assert (b' <> x) by (intros ->; lia). splits; try lia. intros v Hv. destruct (Nat.eq_dec v b') as [->|]; [auto|apply B2; lia]. }
    wp1. apply (wp_while (fun z => exists e', z = Z.of_nat e' /\ b' <= e' <= e /\ forall v, v < n -> e' < v -> h.[v] < S cur) (fun z => Z.to_nat z)).
    { exists e. splits; auto; try lia. intros v Hv Hv'. specialize (I3 v Hv ltac:(lia)). lia. }
    { lia. }
    intros z (e' & -> & F1 & F2). wp1. apply rdZ_wp; [lia|lia|]. rewrite Nat2Z.id. wp1. destruct (Z.eqb_spec nc.[e'] 0) as [Z1|Z1]; cbn [andb].
    { destruct (Z.leb_spec (Z.of_nat b') (Z.of_nat e')); [|lia]. apply NZ in Z1; [|lia]. assert (b' <> e') by (intros ->; apply Z0, NZ; auto; lia). wp1. split; [|lia]. exists (e' - 1). splits; try lia.
      intros v Hv Hv'. destruct (Nat.eq_dec v e') as [->|]; [auto|apply F2; lia]. }
    wp1. wp1; [rewrite upd_length; lia|]. wp1. wp1; [rewrite upd_length; lia|]. replace (S cur - 1) with cur by lia. rewrite !LP by lia. wp1.
    pose proof (cbase_mono n (aget h) cur (S cur) ltac:(lia)) as CM. pose proof (cbase_le n (aget h) (S cur)) as CL.
    apply (wp_for (fun l nc' => length nc' = n /\ forall p, p < n -> nc'.[p] = Z.of_nat (rest l p))).
    { auto. }
    { split; auto. }
    { intros l nc' Hl (M1 & M2). destruct (cpos_onto n (aget h) l ltac:(lia)) as (c & Hc & Ec). assert (Hh : h.[c] = cur) by (apply (cpos_bucket n (aget h)); [auto|lia]).
      wp1. wp1; [lia|]. replace ls'.[l] with c by (rewrite <- Ec; symmetry; apply L'; [auto|lia]). wp1. wp1; [lia|]. destruct (Z.leb_spec 0 tree.[c]) as [H0|H0].
      - destruct (key_lt n tree PA c Hc H0) as [K1 K2]. wp1. apply rdZ_wp; [auto|lia|]. apply wrZ_wp; [auto|lia|]. rewrite upd_length. split; auto. rewrite K2. intros p Hp.
        rewrite aget_upd by lia. pose proof (rest_step l c p Hc Hp Ec) as RS. rewrite (Nat.eqb_sym (key c) p) in RS. destruct (Nat.eqb_spec p (key c)) as [->|]; simpl in RS; rewrite M2 by auto; lia.
      - wp1. split; auto. intros p Hp. rewrite M2 by auto. pose proof (rest_step l c p Hc Hp Ec) as RS. rewrite key_root in RS by auto. destruct (Nat.eqb_spec n p); [lia|]. simpl in RS. lia. }
    intros nc' (M1 & M2). wp1. split; [|lia]. split; [exists x; auto|]. exists b', e'. splits; auto. unfold I. rewrite !upd_length. splits; auto; try lia.
    intros v Hv [G|G]; [apply B2; auto|apply F2; auto].
Qed.

End Rounds.
