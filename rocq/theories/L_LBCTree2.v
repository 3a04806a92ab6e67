(** Proofs about the splitting of a forest into its trees (M_LBCTree.v, post_order_spliting). *)
From Coq Require Import ZifyBool ZifyNat.
From Verif Require Import Base Lib Lib2 Lib3 Spec M_Tree M_LBC M_LBCTree P_Tree L_Post2 P_Post P_TreeH L_LBCTree L_LBC4.

Lemma cnt_mono_lt a b p q j : (forall i, a <= i < b -> p i = true -> q i = true) -> a <= j < b -> p j = false -> q j = true -> cnt a b p < cnt a b q.
Proof.
  intros H Hj Hp Hq. rewrite (cnt_split a (S j) b p), (cnt_split a (S j) b q), !cnt_S by lia. rewrite Hp, Hq. cbn [b2n].
  pose proof (cnt_mono a j p q ltac:(intros; apply H; auto; lia)). pose proof (cnt_mono (S j) b p q ltac:(intros; apply H; auto; lia)). lia.
Qed.

Lemma fin_choice n (P : nat -> nat -> Prop) : (forall v, v < n -> exists d, P v d) -> exists l, length l = n /\ forall v, v < n -> P v l.[v].
Proof.
  induction n as [|n IH]; intros H.
  - exists []. split; auto. lia.
  - destruct IH as (l & HL & HP); [intros; apply H; lia|]. destruct (H n ltac:(lia)) as [d Hd]. exists (l ++ [d]). split; [rewrite app_length; simpl; lia|].
    intros v Hv. destruct (Nat.eq_dec v n) as [->|]; [rewrite <- HL at 2; now rewrite aget_app_last|]. rewrite aget_app1 by lia. apply HP. lia.
Qed.

Lemma app_cons_split' {A} (l1 pre post : list A) x y : l1 ++ [x] = pre ++ y :: post ->
  (post = [] /\ pre = l1 /\ x = y) \/ exists post', post = post' ++ [x] /\ l1 = pre ++ y :: post'.
Proof.
  intros E. destruct post as [|z t] using rev_ind.
  - left. apply app_inj_tail in E. destruct E. auto.
  - right. clear IHt. exists t. rewrite app_comm_cons, app_assoc in E. apply app_inj_tail in E. destruct E as [E1 E2]. subst. auto.
Qed.

Lemma last_cons (t : list nat) : forall y s, last (y :: t) s = last t y.
Proof. induction t as [|a t IH]; intros y s; auto. change (last (y :: a :: t) s) with (last (a :: t) s). now rewrite !IH. Qed.

(** a forest on some of the nodes; the others have parent -2 *)
Definition part_forest (n : nat) (tt : list Z) : Prop :=
  length tt = n /\ forall v, v < n -> tt.[v] = (-2)%Z \/ exists d, dep n tt v d.

Section Split.
Context {T : Type} {DT : Dflt T}.
Variables (add : T -> T -> T).
Variables (n : nat) (tt : list Z) (cost : list T) (cp cn : list nat).
Hypothesis PF : part_forest n tt.
Hypothesis CL : n <= length cost.
Notation E := (tree_edge n tt).
Notation key := (key n tt).

Hypothesis CP : n < length cp /\ forall k, k <= n -> cp.[k] = cbase n key k.
Hypothesis CN : n - nroots n tt <= length cn /\ forall l, l < n -> key l < n -> cn.[cpos n key l] = l.

Lemma TL : length tt = n. Proof. apply PF. Qed.

Lemma pPA : parent_array n tt.
Proof.
  split; [rewrite TL; auto|]. intros l Hl. destruct PF as [_ H]. destruct (H l Hl) as [->|[d Hd]]; [lia|]. inversion Hd; subst; lia.
Qed.

Lemma in_dep v : v < n -> tt.[v] <> (-2)%Z -> exists d, dep n tt v d.
Proof. intros Hv H. destruct PF as [_ G]. destruct (G v Hv); [easy|auto]. Qed.

Lemma dep_in v d : dep n tt v d -> tt.[v] <> (-2)%Z.
Proof. intros H. inversion H; subst; lia. Qed.

Lemma E_in u v : E u v -> tt.[u] <> (-2)%Z /\ tt.[v] <> (-2)%Z.
Proof.
  intros (A & B & C). split; [lia|]. destruct (in_dep u A ltac:(lia)) as [d Hd]. inversion Hd as [|? p ? H1 H2 H3]; subst; [lia|].
  replace p with v in H3 by lia. now apply dep_in in H3.
Qed.

Lemma pchain_dep u v k d : chain E u v k -> dep n tt v d -> dep n tt u (k + d).
Proof.
  revert u. induction k as [|k IH]; intros u Hc Hd.
  - inversion Hc; subst. auto.
  - apply chain_uncons in Hc. destruct Hc as (w & (A & B & C) & Hc). simpl. econstructor; eauto.
Qed.

Lemma pE_fun u v w : E u v -> E u w -> v = w.
Proof. intros (_ & _ & A) (_ & _ & B). lia. Qed.

Lemma pacyclic u k : ~ chain E u u (S k).
Proof.
  intros Hc. assert (H : u < n /\ tt.[u] <> (-2)%Z) by (apply chain_uncons in Hc; destruct Hc as (w & H & _); split; [apply H|apply E_in in H; apply H]).
  destruct (in_dep u (proj1 H) (proj2 H)) as [d Hd]. pose proof (pchain_dep u u _ d Hc Hd) as H'. pose proof (dep_fun n tt u d Hd _ H'). lia.
Qed.

Lemma pchain_rest u a b i j : chain E u a i -> chain E u b j -> i <= j -> chain E a b (j - i).
Proof.
  revert u j. induction i as [|i IH]; intros u j H1 H2 Hij.
  - inversion H1; subst. now rewrite Nat.sub_0_r.
  - destruct j as [|j]; [lia|]. apply chain_uncons in H1, H2. destruct H1 as (w & A & H1), H2 as (w' & A' & H2).
    rewrite (pE_fun u w' w A' A) in H2. cbn [Nat.sub]. apply (IH w); auto. lia.
Qed.

Lemma key_E c p : c < n -> p < n -> (key c =? p) = true <-> E c p.
Proof. intros Hc Hp. rewrite key_parent by auto. rewrite Z.eqb_eq. unfold tree_edge. intuition. Qed.

Lemma chain_stays u v k : chain E u v k -> v < n -> u < n.
Proof. intros H Hv. destruct k; [inversion H; subst; auto|]. apply chain_uncons in H. destruct H as (w & H & _). apply H. Qed.

Lemma chain_root r v k : (tt.[r] < 0)%Z -> chain E r v k -> r = v /\ k = 0.
Proof. intros H C. destruct k; [inversion C; auto|]. apply chain_uncons in C. destruct C as (w & (_ & _ & C) & _). lia. Qed.

(** ** The stack *)

(** above the bottom every node has its parent further down and a child *)
Fixpoint okst (s : list nat) : Prop :=
  match s with
  | [] => True
  | x :: t => (t = [] \/ ((exists p, E x p /\ In p t) /\ exists c, E c x)) /\ okst t
  end.

Lemma okst_bottom s t x : okst (s :: t) -> In x (s :: t) -> exists k, chain E x (last t s) k.
Proof.
  revert s x. induction t as [|y t IH]; intros s x H Hx.
  - destruct Hx as [->|[]]. exists 0. constructor.
  - destruct H as ([H|((p & H1 & H2) & _)] & H'); [discriminate|].
    assert (G : forall z, In z (y :: t) -> exists k, chain E z (last (y :: t) s) k).
    { intros z Hz. destruct (IH y z H' Hz) as [k Hk]. exists k. now rewrite last_cons. }
    destruct Hx as [<-|Hx]; [|auto]. destruct (G p H2) as [k Hk]. exists (S k). eapply chain_cons; eauto.
Qed.

(** the parents of a stacked node are stacked, up to the bottom *)
Lemma okst_parent s t x p : okst (s :: t) -> In x (s :: t) -> x <> last t s -> E x p -> In p (s :: t).
Proof.
  revert s. induction t as [|y t IH]; intros s H Hx Hne He.
  - destruct Hx as [->|[]]. simpl in Hne. easy.
  - destruct H as ([H|((q & H1 & H2) & _)] & H'); [discriminate|]. destruct Hx as [<-|Hx].
    + right. now rewrite (pE_fun s p q He H1).
    + right. apply (IH y); auto. now rewrite last_cons in Hne.
Qed.

Lemma last_In (s : nat) t : In (last t s) (s :: t).
Proof.
  revert s. induction t as [|y t IH]; intros s; [now left|]. right. rewrite last_cons. apply IH.
Qed.

Lemma mark_up_wp stack k mark (Q : list bool -> Prop) : stack <> [] -> okst stack -> (forall x, In x stack -> x < n) -> In k stack -> length mark = n ->
  (forall mark', length mark' = n -> (forall v, mark.[v] = true -> mark'.[v] = true) -> (forall v, v < n -> mark'.[v] = true -> mark.[v] = true \/ In v stack) ->
     (forall x j, In x stack -> chain E k x j -> mark'.[x] = true) -> Q mark') ->
  wp (mark_up n tt stack k mark) Q.
Proof.
  intros HS HO HB HK HM HQ. destruct stack as [|s t]; [easy|]. unfold mark_up. pose proof TL as TL.
  destruct (fin_choice n (fun v d => d < n /\ (tt.[v] <> (-2)%Z -> dep n tt v d))) as (dl & DL1 & DL2).
  { intros v Hv. destruct (Z.eq_dec tt.[v] (-2)%Z) as [e|ne]; [exists 0; split; [lia|easy]|]. destruct (in_dep v Hv ne) as [d Hd]. exists d. split; auto. now apply (dep_lt n tt v). }
  set (b := last t s) in *. assert (HbIn : In b (s :: t)) by apply last_In.
  wp1. apply (wp_while (fun '(z, mk) => exists x j, z = Z.of_nat x /\ In x (s :: t) /\ chain E k x j /\ length mk = n /\ (forall v, mark.[v] = true -> mk.[v] = true) /\
     (forall v, v < n -> mk.[v] = true -> mark.[v] = true \/ In v (s :: t)) /\ (forall y i, chain E k y i -> i < j -> mk.[y] = true))
     (fun '(z, mk) => dl.[Z.to_nat z])).
  - exists k, 0. splits; auto; [constructor|]. intros; lia.
  - rewrite Nat2Z.id. pose proof (HB k HK) as Hk. destruct (DL2 k Hk). lia.
  - intros [z mk] (x & j & -> & X1 & X2 & X3 & X4 & X5 & X6). pose proof (HB x X1) as Hx. wp1. destruct (Z.eqb_spec (Z.of_nat x) (Z.of_nat b)) as [Eb|Nb]; cbn [negb].
    + assert (x = b) by lia. subst x. apply wrZ_wp; [lia|lia|]. rewrite Nat2Z.id. apply HQ.
      * now rewrite upd_length.
      * intros v Hv. destruct (Nat.eq_dec v b) as [->|]; [now rewrite aget_upd_eq by lia|]. rewrite aget_upd_ne by lia. auto.
      * intros v Hv Hm. destruct (Nat.eq_dec v b) as [->|]; [auto|]. rewrite aget_upd_ne in Hm by lia. auto.
      * intros y i Hy Hc. destruct (Nat.eq_dec y b) as [->|Ne]; [now rewrite aget_upd_eq by lia|]. rewrite aget_upd_ne by lia. apply (X6 y i); auto.
        destruct (le_lt_dec j i) as [L|]; auto. exfalso. pose proof (pchain_rest k b y j i X2 Hc L) as C1. destruct (okst_bottom s t y HO Hy) as [m C2]. fold b in C2.
        pose proof (chain_app E b y b _ _ C1 C2) as C3. destruct (i - j + m) eqn:Em; [|now apply pacyclic in C3]. replace (i - j) with 0 in C1 by lia. inversion C1. congruence.
    + assert (Nb' : x <> b) by lia. wp1. apply wrZ_wp; [lia|lia|]. wp1. apply rdZ_wp; [lia|lia|]. rewrite Nat2Z.id. wp1.
      destruct (okst_bottom s t x HO X1) as [m C2]. fold b in C2. destruct m as [|m]; [inversion C2; congruence|]. apply chain_uncons in C2. destruct C2 as (p & EP & C2).
      pose proof (okst_parent s t x p HO X1 Nb' EP) as Hp. destruct EP as (P1 & P2 & P3). split.
      * exists p, (S j). rewrite upd_length. splits; auto.
        -- econstructor; eauto. split; auto.
        -- intros v Hv. destruct (Nat.eq_dec v x) as [->|]; [now rewrite aget_upd_eq by lia|]. rewrite aget_upd_ne by lia. auto.
        -- intros v Hv Hm. destruct (Nat.eq_dec v x) as [->|]; [auto|]. rewrite aget_upd_ne in Hm by lia. auto.
        -- intros y i Hc Hi. destruct (Nat.eq_dec y x) as [->|]; [now rewrite aget_upd_eq by lia|]. rewrite aget_upd_ne by lia. apply (X6 y i); auto.
           assert (i <> j); [|lia]. intros ->. pose proof (pchain_rest k x y j j X2 Hc ltac:(lia)) as C1. rewrite Nat.sub_diag in C1. inversion C1. congruence.
      * rewrite P3, !Nat2Z.id. destruct (DL2 x Hx) as [_ D1]. destruct (DL2 p P2) as [_ D2].
        assert (HE : E x p) by (split; auto). apply E_in in HE. destruct HE as [I1 I2]. specialize (D1 I1). specialize (D2 I2).
        assert (D3 : dep n tt x (S dl.[p])) by (econstructor; eauto). pose proof (dep_fun n tt x _ D1 _ D3). lia.
Qed.

(** ** Visiting a node *)

Variables (vis0 : list bool) (R cur : nat) (oc0 : list T).

Definition invA (vis : list bool) (nc part : list nat) (oc : list T) : Prop :=
  length vis = n /\ length nc = n /\ length oc = length oc0 /\
  (forall v, v < n -> nc.[v] = cnt 0 n (fun c => (key c =? v) && negb vis.[c])) /\
  (forall c v, E c v -> vis.[v] = true -> vis.[c] = true) /\
  (forall v, v < n -> vis.[v] = true <-> vis0.[v] = true \/ In v part) /\
  NoDup part /\ (forall v, In v part -> v < n /\ vis0.[v] = false /\ exists k, chain E v R k) /\
  (forall pre v post c, part = pre ++ v :: post -> E c v -> In c pre) /\
  oc.[cur] = fold_left add (map (aget cost) part) oc0.[cur] /\ (forall j, j <> cur -> oc.[j] = oc0.[j]).

Lemma nc_zero_children vis nc part oc k c : invA vis nc part oc -> k < n -> nc.[k] = 0 -> E c k -> vis.[c] = true.
Proof.
  intros (_ & _ & _ & A & _) Hk H0 He. rewrite A in H0 by auto. pose proof (te_lt n tt c k He) as [Hc _]. pose proof (cnt_zero _ _ _ H0 c ltac:(lia)) as G. cbv beta in G.
  apply (key_E c k) in He; auto. rewrite He in G. simpl in G. now apply negb_false_iff in G.
Qed.

Lemma cnt_visit vis x v : length vis = n -> x < n -> v < n -> vis.[x] = false ->
  cnt 0 n (fun c => (key c =? v) && negb vis.[c]) = cnt 0 n (fun c => (key c =? v) && negb (upd vis x true).[c]) + b2n (key x =? v).
Proof.
  intros HL Hx Hv H0. destruct (key x =? v) eqn:Ek; cbn [b2n].
  - rewrite Nat.add_comm. apply (cnt_upd_true 0 n _ _ x); cbv beta; [lia| | |].
    + rewrite Ek, aget_upd_eq by lia. reflexivity.
    + rewrite Ek, H0. reflexivity.
    + intros i Hi Hne. now rewrite aget_upd_ne by lia.
  - rewrite Nat.add_0_r. apply cnt_ext. intros i Hi. destruct (Nat.eq_dec i x) as [->|]; [now rewrite Ek|]. now rewrite aget_upd_ne by lia.
Qed.

(** the node joins the part; [nc'] has the counter of its parent decreased *)
Lemma visitA vis nc part oc x nc' : invA vis nc part oc -> x < n -> vis.[x] = false -> nc.[x] = 0 -> (exists k, chain E x R k) -> cur < length oc0 ->
  (forall y, vis0.[y] = true -> forall p, E y p -> vis0.[p] = true) ->
  length nc' = n -> (forall v, v < n -> nc.[v] = nc'.[v] + b2n (key x =? v)) ->
  invA (upd vis x true) nc' (part ++ [x]) (upd oc cur (add oc.[cur] cost.[x])).
Proof.
  intros I Hx Hv H0 HR Hc UP HL' HN. pose proof (fun c => nc_zero_children vis nc part oc x c I Hx H0) as HC. destruct I as (A1 & A2 & A3 & A4 & A5 & A6 & A7 & A8 & A9 & A10 & A11).
  assert (NI : ~ In x part) by (intros G; assert (vis.[x] = true) by (apply A6; auto); congruence).
  unfold invA. rewrite !upd_length. splits; auto.
  - intros v Hv'. specialize (HN v Hv'). rewrite A4, (cnt_visit vis x v) in HN by auto. lia.
  - intros c v He Hvv. destruct (Nat.eq_dec c x) as [->|]; [now rewrite aget_upd_eq by lia|]. rewrite aget_upd_ne by lia.
    destruct (Nat.eq_dec v x) as [->|]; [now apply HC|]. rewrite aget_upd_ne in Hvv by lia. now apply (A5 c v).
  - intros v Hv'. rewrite in_app_iff. destruct (Nat.eq_dec v x) as [->|].
    + rewrite aget_upd_eq by lia. split; [intros _; right; right; now left|auto].
    + rewrite aget_upd_ne by lia. rewrite A6 by auto. simpl. intuition congruence.
  - now apply NoDup_snoc.
  - intros v Hv'. apply in_app_iff in Hv'. destruct Hv' as [Hv'|[<-|[]]]; [now apply A8|]. splits; auto. destruct vis0.[x] eqn:E0; auto. assert (vis.[x] = true) by (apply A6; auto). congruence.
  - intros pre v post c Ep He. destruct (app_cons_split' part pre post x v Ep) as [(E1 & E2 & E3)|(post' & _ & Ep')].
    2: now apply (A9 pre v post').
    + subst post pre v. specialize (HC c He). pose proof (te_lt n tt c _ He) as [Hcn _]. apply A6 in HC; auto. destruct HC as [HC|HC]; auto.
      specialize (UP c HC _ He). assert (vis.[x] = true) by (apply A6; auto; left; congruence). congruence.
  - rewrite aget_upd_eq by lia. rewrite map_app, fold_left_app. simpl. now rewrite A10.
  - intros j Hj. rewrite aget_upd_ne by lia. auto.
Qed.

(** ** The stack and the marks *)

Definition invB (stack : list nat) (vis mark : list bool) : Prop :=
  length mark = n /\ NoDup stack /\ okst stack /\
  (forall x, In x stack -> x < n /\ vis.[x] = false /\ exists k, chain E x R k) /\
  (forall c x k, In x stack -> vis.[c] = true -> chain E c x k -> mark.[x] = true) /\
  (forall v, v < n -> mark.[v] = true -> vis.[v] = true \/ In v stack) /\
  (forall v p, vis.[v] = true -> E v p -> vis.[p] = false -> In p stack).

Definition inb (v : nat) (s : list nat) : bool := if in_dec Nat.eq_dec v s then true else false.
Lemma inb_spec v s : inb v s = true <-> In v s.
Proof. unfold inb. destruct (in_dec Nat.eq_dec v s); intuition discriminate. Qed.

Definition meas (stack : list nat) (vis : list bool) : nat :=
  cnt 0 n (fun v => negb vis.[v]) + cnt 0 n (fun v => negb vis.[v] && negb (inb v stack)).

Lemma meas_visit stack stack' vis x : length vis = n -> x < n -> vis.[x] = false -> (forall v, In v stack -> v = x \/ In v stack') -> meas stack' (upd vis x true) < meas stack vis.
Proof.
  intros HL Hx Hv HS. unfold meas.
  assert (cnt 0 n (fun v => negb (upd vis x true).[v]) < cnt 0 n (fun v => negb vis.[v])).
  { apply (cnt_mono_lt 0 n _ _ x); [|lia| |].
    - intros i Hi Hp. destruct (Nat.eq_dec i x) as [->|]; [now rewrite Hv|]. now rewrite aget_upd_ne in Hp by lia.
    - now rewrite aget_upd_eq by lia.
    - now rewrite Hv. }
  assert (cnt 0 n (fun v => negb (upd vis x true).[v] && negb (inb v stack')) <= cnt 0 n (fun v => negb vis.[v] && negb (inb v stack))); [|lia].
  apply cnt_mono. intros i Hi Hp. apply andb_true_iff in Hp. destruct Hp as [P1 P2]. destruct (Nat.eq_dec i x) as [->|]; [rewrite aget_upd_eq in P1 by lia; discriminate|].
  rewrite aget_upd_ne in P1 by lia. rewrite P1. cbn [andb]. apply negb_true_iff in P2. apply negb_true_iff. destruct (inb i stack) eqn:E1; auto. apply inb_spec in E1. apply HS in E1. destruct E1 as [|E1]; [easy|].
  apply inb_spec in E1. congruence.
Qed.

Lemma meas_push stack vis x : x < n -> vis.[x] = false -> ~ In x stack -> meas (x :: stack) vis < meas stack vis.
Proof.
  intros Hx Hv HS. unfold meas. apply Nat.add_lt_mono_l. apply (cnt_mono_lt 0 n _ _ x); [|lia| |].
  - intros i Hi Hp. apply andb_true_iff in Hp. destruct Hp as [P1 P2]. rewrite P1. cbn [andb]. apply negb_true_iff in P2. apply negb_true_iff. destruct (inb i stack) eqn:E1; auto. apply inb_spec in E1.
    assert (inb i (x :: stack) = true) by (apply inb_spec; now right). congruence.
  - rewrite Hv. cbn [negb andb]. apply negb_false_iff. apply inb_spec. now left.
  - rewrite Hv. cbn [negb andb]. apply negb_true_iff. destruct (inb x stack) eqn:E1; auto. now apply inb_spec in E1.
Qed.

Lemma meas_le stack vis : meas stack vis <= 2 * n.
Proof. unfold meas. pose proof (cnt_le 0 n (fun v => negb vis.[v])). pose proof (cnt_le 0 n (fun v => negb vis.[v] && negb (inb v stack))). lia. Qed.

(** ** One round *)

Hypothesis R_root : R < n /\ tt.[R] = (-1)%Z.
Hypothesis UP0 : forall y, vis0.[y] = true -> forall p, E y p -> vis0.[p] = true.
Hypothesis CUR : cur < length oc0.

Definition inv (s : bool * pstate) : Prop :=
  let '(stop, (stack, vis, mark, nc, part, oc)) := s in
  invA vis nc part oc /\ invB stack vis mark /\ (if stop : bool then stack = [] /\ vis.[R] = true else stack <> []).

Lemma decr_wp (nc : list nat) p v c (Q : list nat -> Prop) : p = Z.of_nat v -> v < length nc -> nc.[v] = S c -> Q (upd nc v c) -> wp (decr nc p) Q.
Proof.
  intros -> Hv Hc HQ. unfold decr. wp1. apply rdZ_wp; [lia|lia|]. rewrite Nat2Z.id, Hc. apply wrZ_wp; [lia|lia|]. now rewrite Nat2Z.id.
Qed.

Lemma pop_wp k rest vis mark nc part oc : inv (false, (k :: rest, vis, mark, nc, part, oc)) -> nc.[k] = 0 ->
  wp (split_step add n tt cost cp cn cur (false, (k :: rest, vis, mark, nc, part, oc)))
     (fun s => inv s /\ let '(_, (stack', vis', _, _, _, _)) := s in meas stack' vis' < meas (k :: rest) vis).
Proof.
  intros (IA & IB & _) H0. destruct IB as (B1 & B2 & B3 & B4 & B5 & B6 & B7). destruct (B4 k (or_introl eq_refl)) as (Hk & Vk & Ck).
  pose proof (fun c => nc_zero_children vis nc part oc k c IA Hk H0) as HC. pose proof IA as (A1 & A2 & A3 & A4 & A5 & A6 & A7 & A8 & A9 & A10 & A11). pose proof TL as TL.
  unfold split_step. wp1. wp1; [lia|]. rewrite H0. cbn [Nat.eqb]. wp1. wp1; [lia|]. wp1. wp1; [lia|]. wp1. wp1; [lia|]. wp1. wp1; [lia|]. wp1. wp1; [lia|].
  inversion B2 as [|? ? ND1 ND2]; subst.
  destruct (Z.leb_spec 0 tt.[k]) as [Hp|Hp].
  - (* the parent *)
    destruct (key_lt n tt pPA k Hk Hp) as [K1 K2]. set (p := key k) in *. assert (EP : E k p) by (split; [auto|split; [auto|lia]]).
    assert (NE : k <> p) by (intros X; rewrite <- X in EP; apply (pacyclic k 0); now apply chain_one).
    assert (Vp : vis.[p] = false) by (destruct vis.[p] eqn:E0; auto; pose proof (A5 k p EP E0); congruence).
    assert (NCp : exists c, nc.[p] = S c).
    { destruct nc.[p] as [|c] eqn:E0; [|eauto]. pose proof (nc_zero_children vis nc part oc p k IA K1 E0 EP). congruence. }
    destruct NCp as [c Ec]. wp1. apply (decr_wp nc _ p c); [lia|lia|auto|]. wp1. apply rdZ_wp; [auto|rewrite upd_length; lia|]. rewrite K2. rewrite aget_upd_ne by lia. rewrite Vp.
    wp1. apply rdZ_wp; [auto|lia|]. rewrite K2. wp1. apply wrZ_wp; [auto|lia|]. rewrite K2. wp1.
    assert (IA' : invA (upd vis k true) (upd nc p c) (part ++ [k]) (upd oc cur (add oc.[cur] cost.[k]))).
    { apply (visitA vis nc part oc k); auto.
      - now rewrite upd_length.
      - intros v Hv. fold p. destruct (Nat.eqb_spec p v) as [<-|]; [rewrite aget_upd_eq by lia; simpl; lia|]. rewrite aget_upd_ne by lia. simpl. lia. }
    assert (CPR : exists j, chain E p R j).
    { destruct Ck as [j Cj]. destruct j as [|j]; [inversion Cj; subst; destruct R_root; lia|]. apply chain_uncons in Cj. destruct Cj as (w & W1 & W2). rewrite (pE_fun k p w EP W1). eauto. }
    (* the new stack *)
    assert (NS : exists stack', (if mark.[p] then rest else p :: rest) = stack' /\ NoDup stack' /\ okst stack' /\ In p stack' /\ (forall x, In x stack' -> x = p \/ In x rest) /\ (forall x, In x rest -> In x stack') /\
       (forall x j, In x stack' -> chain E k x j -> x <> p -> mark.[x] = true)).
    { destruct B3 as [O1 O2]. destruct O1 as [->|((p' & P1 & P2) & (ch & P3))].
      - destruct mark.[p] eqn:Emp; [destruct (B6 p K1 Emp) as [G|[G|[]]]; congruence|]. exists [p]. splits; auto; try easy.
        + repeat constructor; easy.
        + simpl; auto.
        + now left.
        + intros x [<-|[]]; auto.
        + intros x j [<-|[]] _ G; easy.
      - rewrite (pE_fun k p' p P1 EP) in P2. specialize (HC ch P3).
        assert (MK : forall x j, In x rest -> chain E k x j -> mark.[x] = true) by (intros x j Hx Hc; apply (B5 ch x (S j)); [now right|auto|]; eapply chain_cons; eauto).
        rewrite (MK p 1 P2 (chain_one _ _ _ EP)). exists rest. splits; auto. intros x j Hx Hc _. eauto. }
    destruct NS as (stack' & -> & N1 & N2 & N3 & N4 & N5 & N6). split.
    + unfold inv. splits; auto.
      * unfold invB. rewrite upd_length. splits; auto.
        -- intros x Hx. destruct (N4 x Hx) as [->|Hx'].
           ++ rewrite aget_upd_ne by lia. auto.
           ++ assert (x <> k) by (intros ->; easy). rewrite aget_upd_ne by lia. apply B4. now right.
        -- intros c' x j Hx Hc Hch. destruct (Nat.eq_dec x p) as [->|Nx]; [now rewrite aget_upd_eq by lia|]. rewrite aget_upd_ne by lia. destruct (Nat.eq_dec c' k) as [->|Nc]; [now apply (N6 x j)|].
           rewrite aget_upd_ne in Hc by lia. apply (B5 c' x j); auto. destruct (N4 x Hx); [easy|now right].
        -- intros v Hv Hm. destruct (Nat.eq_dec v p) as [->|Nx]; [auto|]. rewrite aget_upd_ne in Hm by lia. destruct (Nat.eq_dec v k) as [->|]; [left; now rewrite aget_upd_eq by lia|].
           rewrite aget_upd_ne by lia. destruct (B6 v Hv Hm) as [|[G|G]]; [auto|congruence|auto].
        -- intros v q Hv He Hq. destruct (Nat.eq_dec v k) as [->|]; [now rewrite (pE_fun k q p He EP)|]. rewrite aget_upd_ne in Hv by lia.
           destruct (Nat.eq_dec q k) as [->|]; [rewrite aget_upd_eq in Hq by lia; discriminate|]. rewrite aget_upd_ne in Hq by lia. destruct (B7 v q Hv He Hq) as [G|G]; [congruence|auto].
      * intros ->. easy.
    + apply meas_visit; auto. intros v [<-|Hv]; [auto|right; auto].
  - (* a root *)
    wp1. assert (rest = []) as ->.
    { destruct B3 as [[|((p & (_ & _ & P) & _) & _)] _]; auto. lia. }
    destruct Ck as [j Cj]. apply chain_root in Cj; auto. destruct Cj as [-> ->].
    assert (IA' : invA (upd vis R true) nc (part ++ [R]) (upd oc cur (add oc.[cur] cost.[R]))).
    { apply (visitA vis nc part oc R); auto.
      - exists 0. constructor.
      - intros v Hv. rewrite key_root by auto. destruct (Nat.eqb_spec n v); [lia|]. simpl. lia. }
    split.
    + unfold inv. splits; auto.
      * unfold invB. splits; auto; try easy.
        -- intros v Hv Hm. left. destruct (Nat.eq_dec v R) as [->|]; [now rewrite aget_upd_eq by lia|]. rewrite aget_upd_ne by lia. destruct (B6 v Hv Hm) as [|[G|[]]]; [auto|congruence].
        -- intros v q Hv He Hq. destruct (Nat.eq_dec v R) as [->|]; [exfalso; destruct He as (_ & _ & He); lia|]. rewrite aget_upd_ne in Hv by lia.
           destruct (Nat.eq_dec q R) as [->|]; [rewrite aget_upd_eq in Hq by lia; discriminate|]. rewrite aget_upd_ne in Hq by lia. destruct (B7 v q Hv He Hq) as [G|[]]; congruence.
      * now rewrite aget_upd_eq by lia.
    + apply meas_visit; auto. intros v [<-|[]]; auto.
Qed.

Lemma stack_up s t y z j m : okst (s :: t) -> In y (s :: t) -> chain E y z j -> chain E z (last t s) m -> In z (s :: t).
Proof.
  intros HO. revert y. induction j as [|j IH]; intros y Hy H1 H2.
  - inversion H1; subst. auto.
  - apply chain_uncons in H1. destruct H1 as (w & W1 & W2). apply (IH w); auto. apply (okst_parent s t y w); auto. intros ->.
    pose proof (chain_app E _ _ _ _ _ W2 H2) as C. apply (pacyclic (last t s) (j + m)). eapply chain_cons; eauto.
Qed.

Lemma first_unvis stack vis mark c x j : invB stack vis mark -> vis.[c] = true -> chain E c x j -> vis.[x] = false -> exists y m, In y stack /\ chain E y x m.
Proof.
  intros (_ & _ & _ & _ & _ & _ & B7). revert c. induction j as [|j IH]; intros c Hc H Hx.
  - inversion H; subst. congruence.
  - apply chain_uncons in H. destruct H as (w & W1 & W2). destruct vis.[w] eqn:Ew; [apply (IH w); auto|]. exists w, j. split; auto. now apply (B7 c w).
Qed.

Lemma front_children k rest c : okst (k :: rest) -> NoDup (k :: rest) -> E c k -> ~ In c (k :: rest).
Proof.
  intros HO ND He [<-|Hin].
  - apply (pacyclic k 0). now apply chain_one.
  - destruct rest as [|s t]; [easy|]. destruct (Nat.eq_dec c (last t s)) as [->|Ne].
    + destruct (okst_bottom k (s :: t) k HO (or_introl eq_refl)) as [m C]. rewrite last_cons in C. apply (pacyclic k m). econstructor; eauto.
    + inversion ND; subst. apply H1. apply (okst_parent s t c k); auto. apply HO.
Qed.

Lemma child_at k i : k < n -> cbase n key k <= i < cbase n key (S k) -> exists c, E c k /\ cpos n key c = i /\ cn.[i] = c /\ i < length cn.
Proof.
  intros Hk Hi. destruct CN as [C1 C2]. pose proof (cbase_mono n key (S k) n ltac:(lia)). rewrite (cbase_roots n tt pPA) in H.
  destruct (cpos_onto n key i) as (c & Hc & Ec); [lia|]. assert (Kc : key c = k) by (apply (cpos_bucket n key); [auto|lia]).
  exists c. splits; auto; try lia.
  - apply key_E; auto. now apply Nat.eqb_eq.
  - rewrite <- Ec. apply C2; auto. lia.
Qed.

Lemma E_cpos c k : E c k -> key c = k /\ cbase n key k <= cpos n key c < cbase n key (S k).
Proof.
  intros He. pose proof (te_lt n tt c k He) as [Hc Hk]. apply (key_E c k) in He; auto. apply Nat.eqb_eq in He. split; auto.
  pose proof (cpos_lo n key c). pose proof (cpos_hi n key c Hc). rewrite He in *. auto.
Qed.

Lemma expand_wp k rest vis mark nc part oc : inv (false, (k :: rest, vis, mark, nc, part, oc)) -> nc.[k] <> 0 ->
  wp (split_step add n tt cost cp cn cur (false, (k :: rest, vis, mark, nc, part, oc)))
     (fun s => inv s /\ let '(_, (stack', vis', _, _, _, _)) := s in meas stack' vis' < meas (k :: rest) vis).
Proof.
  intros (IA & IB & _) H0. destruct (proj1 (proj2 (proj2 (proj2 IB))) k (or_introl eq_refl)) as (Hk & Vk & Ck). pose proof TL as TL. destruct CP as [CP1 CP2].
  assert (UC : exists c, E c k /\ vis.[c] = false).
  { destruct IA as (_ & _ & _ & A4 & _). rewrite A4 in H0 by auto. destruct (cnt_pos 0 n _ (proj1 (Nat.neq_0_lt_0 _) H0)) as (c & Hc & G). apply andb_true_iff in G. destruct G as [G1 G2]. exists c. split; [apply key_E; auto; lia|now apply negb_true_iff]. }
  unfold split_step. wp1. wp1; [destruct IA as (_ & A2 & _); lia|]. destruct (Nat.eqb_spec nc.[k] 0); [easy|]. wp1. wp1; [lia|]. wp1. wp1; [lia|]. rewrite !CP2 by lia. wp1.
  apply (wp_for (fun i '(stack', vis', mark', nc', part', oc') => invA vis' nc' part' oc' /\ invB stack' vis' mark' /\ In k stack' /\
     (forall c, E c k -> In c stack' -> cpos n key c < i) /\ (forall c, E c k -> i <= cpos n key c -> vis'.[c] = vis.[c]) /\
     meas stack' vis' <= meas (k :: rest) vis /\ ((exists c, E c k /\ cpos n key c < i /\ vis.[c] = false) -> meas stack' vis' < meas (k :: rest) vis))).
  - apply cbase_mono. lia.
  - splits; auto.
    + now left.
    + intros c He Hin. exfalso. destruct IB as (_ & B2 & B3 & _). now apply (front_children k rest c) in He.
    + intros (c & He & Hlt & _). apply E_cpos in He. lia.
  - intros i [[[[[st' v'] m'] nc'] pt'] oc'] Hi (JA & JB & JK & JC & JV & JM & JS). destruct (child_at k i Hk Hi) as (c & He & Ec & Ecn & Hcn). pose proof (te_lt n tt c k He) as [Hc _].
    pose proof JA as (A1 & A2 & A3 & A4 & A5 & A6 & A7 & A8 & A9 & A10 & A11). pose proof JB as (B1 & B2 & B3 & B4 & B5 & B6 & B7). destruct (B4 k JK) as (_ & Vk' & _).
    assert (UN : forall c', E c' k -> cpos n key c' = i -> c' = c).
    { intros c' He' Ec'. pose proof (te_lt n tt c' k He') as [Hc' _]. apply (cpos_inj n key); auto. lia. }
    assert (NIN : ~ In c st') by (intros G; apply JC in G; auto; lia).
    assert (CR : exists j, chain E c R j) by (destruct Ck as [j Cj]; exists (S j); eapply chain_cons; eauto).
    unfold split_child. wp1. wp1; [auto|]. rewrite Ecn. wp1. wp1; [lia|]. destruct v'.[c] eqn:Ev.
    + wp1. splits; auto.
      * intros c' He' Hin. apply JC in Hin; auto.
      * intros c' He' Hlt. apply JV; auto. lia.
      * intros (c' & He' & Hlt & Hv'). apply JS. exists c'. splits; auto. assert (cpos n key c' <> i); [|lia]. intros Ei. rewrite (UN c' He' Ei) in Hv'. rewrite <- (JV c) in Hv'; auto; [congruence|lia].
    + wp1. wp1; [lia|]. destruct (Nat.eqb_spec nc'.[c] 0) as [N0|N0].
      * (* a leaf *)
        wp1. wp1; [lia|]. rewrite Vk'. wp1. assert (SNE : st' <> []) by (intros ->; easy). apply (mark_up_wp st' k m'); auto. { intros x Hx. now apply B4. }
        intros mk K1 K2 K3 K4. wp1. wp1; [lia|]. wp1. wp1; [lia|]. wp1. wp1; [lia|]. wp1. wp1; [lia|]. wp1. wp1; [lia|]. wp1.
        assert (NCk : exists x, nc'.[k] = S x) by (destruct nc'.[k] as [|x] eqn:E0; [|eauto]; pose proof (nc_zero_children v' nc' pt' oc' k c JA Hk E0 He); congruence).
        destruct NCk as [x Ex]. assert (Tc : tt.[c] = Z.of_nat k) by apply He. apply (decr_wp nc' _ k x); [auto|lia|auto|]. wp1. pose proof (E_cpos c k He) as [Kc _].
        splits; auto.
        -- apply (visitA v' nc' pt' oc' c); auto.
           ++ now rewrite upd_length.
           ++ intros v Hv. rewrite Kc. destruct (Nat.eqb_spec k v) as [<-|]; [rewrite aget_upd_eq by lia; simpl; lia|]. rewrite aget_upd_ne by lia. simpl. lia.
        -- unfold invB. splits; auto.
           ++ intros y Hy. assert (y <> c) by (intros ->; easy). rewrite aget_upd_ne by lia. auto.
           ++ intros c' y j Hy Hv' Hch. destruct (Nat.eq_dec c' c) as [->|].
              ** destruct j as [|j]; [inversion Hch; subst; easy|]. apply chain_uncons in Hch. destruct Hch as (w & W1 & W2). rewrite (pE_fun c w k W1 He) in W2. eauto.
              ** rewrite aget_upd_ne in Hv' by lia. apply K2. eauto.
           ++ intros v Hv Hm. destruct (Nat.eq_dec v c) as [->|]; [left; now rewrite aget_upd_eq by lia|]. rewrite aget_upd_ne by lia. destruct (K3 v Hv Hm); auto.
           ++ intros v q Hv Hq Hvq. destruct (Nat.eq_dec q c) as [->|]; [rewrite aget_upd_eq in Hvq by lia; discriminate|]. rewrite aget_upd_ne in Hvq by lia.
              destruct (Nat.eq_dec v c) as [->|]; [now rewrite (pE_fun c q k Hq He)|]. rewrite aget_upd_ne in Hv by lia. eauto.
        -- intros c' He' Hin. apply JC in Hin; auto.
        -- intros c' He' Hlt. assert (c' <> c) by (intros ->; lia). rewrite aget_upd_ne by lia. apply JV; auto. lia.
        -- pose proof (meas_visit st' st' v' c A1 Hc Ev ltac:(auto)). lia.
        -- intros _. pose proof (meas_visit st' st' v' c A1 Hc Ev ltac:(auto)). lia.
      * (* another node *)
        wp1. assert (MP := meas_push st' v' c Hc Ev NIN). splits; auto; try lia.
        -- unfold invB. splits; auto.
           ++ now constructor.
           ++ split; auto. right. split; [exists k; auto|]. rewrite A4 in N0 by auto. destruct (cnt_pos 0 n _ (proj1 (Nat.neq_0_lt_0 _) N0)) as (g & Hg & G). apply andb_true_iff in G. exists g. apply key_E; auto; [lia|apply G].
           ++ intros y [<-|Hy]; auto.
           ++ intros c' y j [<-|Hy] Hv' Hch; [|eauto]. exfalso. destruct (first_unvis st' v' m' c' c j JB Hv' Hch Ev) as (z & m & Z1 & Z2). destruct st' as [|s t]; [easy|].
              destruct (okst_bottom s t k B3 JK) as [mm C2]. apply NIN. apply (stack_up s t z c m (S mm)); auto. eapply chain_cons; eauto.
           ++ intros v Hv Hm. destruct (B6 v Hv Hm); auto. right. now right.
           ++ intros v q Hv Hq Hvq. right. eauto.
        -- now right.
        -- intros c' He' [<-|Hin]; [lia|]. apply JC in Hin; auto.
        -- intros c' He' Hlt. apply JV; auto. lia.
  - intros [[[[[st' v'] m'] nc'] pt'] oc'] (JA & JB & JK & JC & JV & JM & JS). wp1. split.
    + unfold inv. splits; auto. intros ->. easy.
    + apply JS. destruct UC as (c & He & Hv). exists c. pose proof (E_cpos c k He). splits; auto. lia.
Qed.

Lemma step_wp s : inv (false, s) -> let '(stack, vis, _, _, _, _) := s in
  wp (split_step add n tt cost cp cn cur (false, s)) (fun s' => inv s' /\ let '(_, (stack', vis', _, _, _, _)) := s' in meas stack' vis' < meas stack vis).
Proof.
  destruct s as [[[[[stack vis] mark] nc] part] oc]. intros I. destruct stack as [|k rest]; [destruct I as (_ & _ & []); auto|].
  destruct (Nat.eq_dec nc.[k] 0); [now apply pop_wp|now apply expand_wp].
Qed.

(** the whole tree *)
Lemma tree_wp v vis mark nc (Q : bool * pstate -> Prop) : inv (false, ([v], vis, mark, nc, [], oc0)) ->
  (forall vis' mark' nc' part oc, invA vis' nc' part oc -> invB [] vis' mark' -> vis'.[R] = true -> Q (true, ([], vis', mark', nc', part, oc))) ->
  wp (while_ (S (S (2 * n))) (fun '(stop, (stack, _, _, _, _, _)) => Ok (negb stop && negb (length stack =? 0)))
        (split_step add n tt cost cp cn cur) (false, ([v], vis, mark, nc, [], oc0))) Q.
Proof.
  intros HI HQ.
  apply (wp_while inv (fun '(_, (stack, vis, _, _, _, _)) => meas stack vis)); auto.
  - pose proof (meas_le [v] vis). lia.
  - intros [stop [[[[[stack vis'] mark'] nc'] part'] oc']] I. wp1. destruct stop; cbn [negb andb].
    + destruct I as (IA & IB & -> & HR). apply HQ; auto.
    + pose proof I as (_ & _ & NE). destruct stack as [|k rest]; [easy|]. cbn [length Nat.eqb negb]. eapply wp_mono; [exact (step_wp (k :: rest, vis', mark', nc', part', oc') I)|].
      intros [b [[[[[a1 a2] a3] a4] a5] a6]] H. exact H.
Qed.

End Split.
