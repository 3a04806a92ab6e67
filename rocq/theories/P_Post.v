(** Properties of tree_post_order (C37) and reorder_tree. *)
From Coq Require Import ZifyBool ZifyNat.
From Verif Require Import Base Lib Lib2 Lib3 Spec Check M_Tree P_Tree L_Post L_Post2.

(** * Specification *)

(** [v] is [u] or one of its ancestors *)
Inductive desc (n : nat) (tree : list Z) : nat -> nat -> Prop :=
| desc_refl u : desc n tree u u
| desc_step u p v : tree.[u] = Z.of_nat p -> p < n -> desc n tree p v -> desc n tree u v.

(** the chain of parents of [u] ends in a root *)
Definition rooted (n : nat) (tree : list Z) (u : nat) : Prop := exists r, desc n tree u r /\ tree.[r] = (-1)%Z.

(** the order of siblings: by index, or by weight (weights are clipped to 0..n-1) and then index *)
Definition clip (n : nat) (w : Z) : Z := Z.min (Z.max 0 w) (Z.of_nat n - 1).
Definition sib_before (n : nat) (Weight : option (list Z)) (u v : nat) : Prop :=
  match Weight with
  | None => u < v
  | Some W => (clip n W.[u] < clip n W.[v])%Z \/ (clip n W.[u] = clip n W.[v] /\ u < v)
  end.

Lemma before_pos (x y : nat) l i j : NoDup l -> before x y l -> i < length l -> j < length l -> l.[i] = x -> l.[j] = y -> i < j.
Proof.
  intros HN (a & b & c & ->) Hi Hj Ei Ej.
  assert (i = length a). { apply (NoDup_aget (a ++ x :: b ++ y :: c)); auto; [rewrite app_length; simpl; lia|]. rewrite Ei. rewrite aget_app2, Nat.sub_diag by lia. reflexivity. }
  assert (j = length a + S (length b)).
  { apply (NoDup_aget (a ++ x :: b ++ y :: c)); auto; [rewrite app_length; simpl; rewrite app_length; simpl; lia|]. rewrite Ej. rewrite aget_app2 by lia. replace (length a + S (length b) - length a) with (S (length b)) by lia.
    rewrite aget_cons_S, aget_app2, Nat.sub_diag by lia. reflexivity. }
  lia.
Qed.

Section Forest.
Variables (n : nat) (tree : list Z).

Inductive dep : nat -> nat -> Prop :=
| dep_0 r : tree.[r] = (-1)%Z -> dep r 0
| dep_S u p d : tree.[u] = Z.of_nat p -> p < n -> dep p d -> dep u (S d).

Lemma dep_fun u d : dep u d -> forall d', dep u d' -> d = d'.
Proof.
  induction 1 as [r Hr|u p d Hu Hp Hd IH]; intros d' H; inversion H as [r' Hr'|u' p' e Hu' Hp' He]; subst; auto; try lia.
  f_equal. apply IH. replace p with p' by lia. auto.
Qed.

Lemma rooted_dep u : rooted n tree u <-> exists d, dep u d.
Proof.
  split.
  - intros (r & Hd & Hr). induction Hd as [u|u p v H1 H2 H3 IH]; [exists 0; now constructor|]. destruct (IH Hr) as [d Hp]. exists (S d). econstructor; eauto.
  - intros [d H]. induction H as [r Hr|u p d H1 H2 H3 (r & Hd & Hr)]; [exists r; split; auto; constructor|]. exists r. split; auto. econstructor; eauto.
Qed.

Lemma desc_dep u v d : desc n tree u v -> dep v d -> exists m, dep u (m + d).
Proof.
  induction 1 as [u|u p v H1 H2 H3 IH]; intros Hd; [exists 0; auto|]. destruct (IH Hd) as [m Hm]. exists (S m). simpl. econstructor; eauto.
Qed.

Lemma desc_trans u v w : desc n tree u v -> desc n tree v w -> desc n tree u w.
Proof. induction 1; auto. intros. econstructor; eauto. Qed.

Lemma desc_same x a b e : desc n tree x a -> desc n tree x b -> dep a e -> dep b e -> a = b.
Proof.
  induction 1 as [u|u p v H1 H2 H3 IH]; intros Hb Da Db.
  - inversion Hb as [|u' p' v' G1 G2 G3]; subst; auto. destruct (desc_dep _ _ _ G3 Db) as [m Hm].
    assert (dep u (S (m + e))) by (econstructor; eauto). pose proof (dep_fun _ _ Da _ H). lia.
  - inversion Hb as [|u' p' v' G1 G2 G3]; subst.
    + destruct (desc_dep _ _ _ H3 Da) as [m Hm]. assert (dep b (S (m + e))) by (econstructor; eauto). pose proof (dep_fun _ _ Db _ H). lia.
    + apply IH; auto. replace p with p' by lia. auto.
Qed.

Lemma dep_lt u d : u < n -> dep u d -> d < n.
Proof.
  intros Hu H. assert (G : exists l, NoDup l /\ length l = S d /\ forall x, In x l -> x < n /\ exists e, e <= d /\ dep x e).
  { induction H as [r Hr|u p d H1 H2 H3 IH].
    - exists [r]. splits; auto; [repeat constructor; easy|]. intros x [<-|[]]. split; auto. exists 0. split; auto. now constructor.
    - destruct (IH H2) as (l & A & B & C). exists (u :: l). splits; [|simpl; lia|].
      + constructor; auto. intros Hin. destruct (C u Hin) as (_ & e & He & De). assert (D : dep u (S d)) by (econstructor; eauto). pose proof (dep_fun _ _ D _ De). lia.
      + intros x [<-|Hx]; [split; auto; exists (S d); split; auto; econstructor; eauto|]. destruct (C x Hx) as (? & e & ? & ?). split; auto. exists e. split; auto. }
  destruct G as (l & A & B & C). assert (length l <= n) by (apply NoDup_bounded_length; auto; intros x Hx; now apply C). lia.
Qed.

(** an order of the nodes that contains every node with a parent exactly once *)
Variable ord : list nat.
Hypothesis ON : NoDup ord.
Hypothesis OB : forall x, In x ord -> x < n.
Hypothesis OC : forall x p, x < n -> tree.[x] = Z.of_nat p -> p < n -> In x ord.

Definition ch (p : nat) : list nat := filter (child_of tree p) ord.

Lemma in_ch p c : p < n -> In c (ch p) <-> c < n /\ tree.[c] = Z.of_nat p.
Proof.
  intros Hp. unfold ch. rewrite filter_In. unfold child_of. split.
  - intros [H1 H2]. split; auto. lia.
  - intros [H1 H2]. split; [eapply OC; eauto|lia].
Qed.

Lemma POs_exists cs e : (forall c, In c cs -> c < n /\ dep c e /\ exists l, PO ch c l /\ NoDup l /\ forall x, In x l <-> x < n /\ desc n tree x c) -> NoDup cs ->
  exists L, POs ch cs L /\ NoDup L /\ forall x, In x L <-> x < n /\ exists c, In c cs /\ desc n tree x c.
Proof.
  induction cs as [|c cs IH]; intros H HN.
  - exists []. splits; [constructor|constructor|]. intros x. split; [easy|]. intros (_ & c & [] & _).
  - apply NoDup_cons_iff in HN. destruct HN as [HN1 HN2]. destruct IH as (L & A & B & C); auto.
    { intros c' Hc'. apply H. now right. }
    destruct (H c (or_introl eq_refl)) as (Hc & Dc & l & P1 & P2 & P3). exists (l ++ L). splits.
    + now constructor.
    + assert (D : forall x, In x l -> ~ In x L).
      { intros x Hx Hx'. apply P3 in Hx. apply C in Hx'. destruct Hx as [_ Hx], Hx' as (_ & c' & Hc' & Hd). destruct (H c' (or_intror Hc')) as (_ & Dc' & _). rewrite (desc_same x c c' e) in HN1; auto. }
      clear - P2 B D. induction P2 as [|x l Hx HN IH]; simpl; auto. constructor; [rewrite in_app_iff; intros [?|?]; [auto|apply (D x); auto; now left]|]. apply IH. intros y Hy. apply D. now right.
    + intros x. rewrite in_app_iff, P3, C. split.
      * intros [[H1 H2]|(H1 & c' & H2 & H3)]; split; auto; [exists c; split; auto; now left|exists c'; split; auto; now right].
      * intros (H1 & c' & [<-|H2] & H3); [left; auto|right; split; auto; exists c'; auto].
Qed.

Lemma PO_exists m : forall u d, u < n -> dep u d -> n - d <= m ->
  exists l, PO ch u l /\ NoDup l /\ forall x, In x l <-> x < n /\ desc n tree x u.
Proof.
  induction m as [|m IH]; intros u d Hu Hd Hm; pose proof (dep_lt u d Hu Hd); [lia|].
  destruct (POs_exists (ch u) (S d)) as (L & A & B & C).
  - intros c Hc. apply in_ch in Hc; auto. destruct Hc as [H1 H2]. assert (D : dep c (S d)) by (econstructor; eauto). splits; auto. apply (IH c (S d)); auto. lia.
  - apply NoDup_filter. auto.
  - exists (L ++ [u]). splits.
    + now constructor.
    + apply NoDup_snoc; auto. intros Hin. apply C in Hin. destruct Hin as (_ & c & Hc & Hdc). apply in_ch in Hc; auto. destruct Hc as [H1 H2].
      assert (D : dep c (S d)) by (econstructor; eauto). destruct (desc_dep _ _ _ Hdc D) as [q Hq]. pose proof (dep_fun _ _ Hd _ Hq). lia.
    + intros x. rewrite in_app_iff, C. simpl. split.
      * intros [(H1 & c & Hc & Hdc)|[<-|[]]]; [|split; auto; constructor]. split; auto. apply in_ch in Hc; auto. destruct Hc. eapply desc_trans; [exact Hdc|]. econstructor; eauto. constructor.
      * intros [H1 H2]. destruct (Nat.eq_dec x u) as [->|Hne]; [auto|]. left. split; auto.
        clear - H2 Hne Hu OC OB ON H1. induction H2 as [u|x p v G1 G2 G3 IH]; [congruence|].
        destruct (Nat.eq_dec p v) as [->|Hpv].
        -- exists x. split; [|constructor]. apply in_ch; auto.
        -- destruct (IH Hu G2 Hpv) as (c & Hc & Hd). exists c. split; auto. econstructor; eauto.
Qed.

Definition roots (j : nat) : list nat := filter (fun l => (tree.[l] =? EMPTY)%Z) (seq 0 j).

Variable Next Head0 : list Z.
Hypothesis LK : linked n tree Next Head0 ord.
Hypothesis TL : n <= length tree.

Definition dinv (Post0 : list nat) (j : nat) (st : nat * list nat * list Z) : Prop :=
  let '(k, Post, Head) := st in
  exists L, POs ch (roots j) L /\ NoDup L /\ (forall x, In x L <-> x < n /\ exists r, In r (roots j) /\ desc n tree x r) /\
    k = length L /\ firstn k Post = L /\ length Post = length Post0 /\ length Head = n + 1 /\
    forall u, u < n -> ~ In u L -> lst Next Head.[u] (ch u).

Lemma dinv_length Post0 j k Post Head : dinv Post0 j (k, Post, Head) -> k <= n.
Proof. intros (L & A & B & C & -> & _). apply NoDup_bounded_length; auto. intros x Hx. now apply C. Qed.

Lemma dfs_loop_wp Post : n <= length Post ->
  wp (for_ 0 n (fun j st => p <- rd tree j ;; if (p =? EMPTY)%Z then dfs_tree (2 * n + 1) n Next j st else Ok st) (0, Post, Head0)) (dinv Post n).
Proof.
  intros HP. destruct LK as (K1 & K2 & K3). apply (wp_for (dinv Post)); [lia| | |auto].
  - exists []. change (roots 0) with (@nil nat). splits; auto; [apply POs_nil|apply NoDup_nil| |]; [intros x; split; [easy|intros (_ & r & [] & _)]|intros u Hu _; apply K3; auto].
  - intros j [[k Po] Head] Hj (L & A & B & C & D & E & F & G & H). wp1. wp1; [lia|]. destruct (Z.eqb_spec tree.[j] EMPTY) as [Hr|Hr].
    + assert (ER : roots (S j) = roots j ++ [j]).
      { unfold roots. rewrite seq_S, filter_app. simpl. rewrite Hr. reflexivity. }
      assert (D0 : dep j 0) by (constructor; auto).
      destruct (PO_exists n j 0 ltac:(lia) D0 ltac:(lia)) as (l & P1 & P2 & P3).
      assert (Hdis : forall x, In x l -> ~ In x L).
      { intros x Hx Hx'. apply P3 in Hx. apply C in Hx'. destruct Hx as [_ Hx], Hx' as (_ & r & Hr' & Hd). unfold roots in Hr'. apply filter_In in Hr'. destruct Hr' as [Hr1 Hr2]. apply in_seq in Hr1.
        assert (j = r); [|lia]. apply (desc_same x j r 0); auto. constructor. unfold EMPTY in *. lia. }
      assert (HND : NoDup (L ++ l)).
      { clear - B P2 Hdis. induction B as [|x L Hx HN IH]; simpl; auto. constructor; [rewrite in_app_iff; intros [?|?]; [auto|apply (Hdis x); auto; now left]|]. apply IH. intros y Hy Hy'. apply (Hdis y Hy). now right. }
      assert (HLen : length L + length l <= n).
      { rewrite <- app_length. apply NoDup_bounded_length; auto. intros x Hx. apply in_app_iff in Hx. destruct Hx as [Hx|Hx]; [now apply C|now apply P3]. }
      pose proof (PO_length _ _ _ P1). unfold dfs_tree. destruct (Nat.eqb_spec n 0); [lia|].
      destruct (proj1 (run n ch Next K1) j l P1 [] k Po Head (2 * n + 1 - (2 * length l - 1))) as (P' & H' & R1 & R2 & R3 & R4 & R5); auto; try (simpl; lia).
      { intros u Hu. split; [now apply P3|]. apply H; [now apply P3|auto]. }
      change (while_ (2 * n + 1) _ _ ([j], k, Po, Head)) with (dloop n Next (2 * n + 1) ([j], k, Po, Head)).
      replace (2 * n + 1) with (2 * length l - 1 + (2 * n + 1 - (2 * length l - 1))) at 1 by lia. rewrite R1.
      destruct (2 * n + 1 - (2 * length l - 1)) as [|f] eqn:Ef; [lia|]. unfold dloop. cbn [while_ bind]. apply wp_ret. unfold dinv. rewrite ER. exists (L ++ l). splits; auto.
      * apply POs_snoc; auto.
      * intros x. rewrite in_app_iff, C, P3. split.
        -- intros [(X1 & r & X2 & X3)|[X1 X2]]; split; auto; [exists r|exists j]; rewrite in_app_iff; simpl; auto.
        -- intros (X1 & r & X2 & X3). rewrite in_app_iff in X2. destruct X2 as [X2|[<-|[]]]; [left; split; auto; exists r; auto|right; auto].
      * rewrite app_length. lia.
      * rewrite R3, E. reflexivity.
      * lia.
      * intros u Hu Hn. rewrite in_app_iff in Hn. rewrite R5 by tauto. apply H; auto.
    + wp1. unfold dinv. assert (ER : roots (S j) = roots j).
      { unfold roots. rewrite seq_S, filter_app. simpl. destruct (Z.eqb_spec tree.[j] EMPTY); [congruence|]. apply app_nil_r. }
      rewrite ER. exists L. splits; auto.
Qed.

(** ** Consequences for positions *)

Lemma block_pos L v i : POs ch (roots n) L -> NoDup L -> i < length L -> L.[i] = v ->
  (forall x, In x L -> x < n) -> (forall u d, u < n -> dep u d -> forall l, PO ch u l -> forall x, In x l <-> x < n /\ desc n tree x u) ->
  (exists d, dep v d) ->
  exists a, a <= i /\ forall m, m < length L -> (desc n tree L.[m] v <-> a <= m <= i).
Proof.
  intros HP HN Hi Ev HB HD [d Hd]. destruct (proj2 (PO_blocks ch) _ _ HP v) as (A & B & C & E & HBk). { rewrite <- Ev. now apply aget_In. }
  pose proof (PO_length _ _ _ HBk) as HLB. destruct (PO_last _ _ _ HBk) as (B' & EB & _).
  assert (Hv : v < n) by (apply HB; rewrite <- Ev; now apply aget_In).
  assert (Ei : i = length A + (length B - 1)).
  { apply (NoDup_aget L); auto; [rewrite E, !app_length; lia|]. rewrite Ev, E. rewrite aget_app2 by lia. rewrite aget_app1 by lia. rewrite EB, app_length. simpl.
    replace (length A + (length B' + 1 - 1) - length A) with (length B') by lia. now rewrite aget_app_last. }
  exists (length A). split; [lia|]. intros m Hm.
  assert (HBin : forall x, In x B <-> x < n /\ desc n tree x v) by (apply (HD v d); auto).
  split.
  - intros Hdm. assert (HIn : In L.[m] B) by (apply HBin; split; auto; apply HB; now apply aget_In).
    apply In_aget in HIn. destruct HIn as (q & Hq & Eq). assert (m = length A + q); [|lia].
    apply (NoDup_aget L); auto; [rewrite E, !app_length; lia|]. rewrite <- Eq, E. rewrite aget_app2 by lia. rewrite aget_app1 by lia. f_equal. lia.
  - intros Hr. apply HBin. rewrite E. rewrite aget_app2 by lia. rewrite aget_app1 by lia. apply aget_In. lia.
Qed.
End Forest.

(** * C37 *)

Lemma word_NoDup n tree Weight : NoDup (word n tree Weight 0 n).
Proof.
  unfold word. assert (G : forall l, NoDup l -> NoDup (flat_map (fun w => filter (in_bucket n tree Weight w) (seq 0 n)) l)).
  { induction 1 as [|w l Hw HN IH]; simpl; [constructor|].
    assert (D : forall x, In x (filter (in_bucket n tree Weight w) (seq 0 n)) -> ~ In x (flat_map (fun w => filter (in_bucket n tree Weight w) (seq 0 n)) l)).
    { intros x Hx Hx'. apply in_flat_map in Hx'. destruct Hx' as (w' & Hw' & Hx'). apply filter_In in Hx, Hx'. unfold in_bucket in *. assert (w = w') by lia. congruence. }
    assert (NF : NoDup (filter (in_bucket n tree Weight w) (seq 0 n))) by apply NoDup_filter, seq_NoDup.
    clear - IH D NF. induction NF as [|x l' Hx HN IH']; simpl; auto. constructor; [rewrite in_app_iff; intros [?|?]; [auto|apply (D x); auto; now left]|]. apply IH'. intros y Hy. apply D. now right. }
  apply G. apply seq_NoDup.
Qed.

(** For every parent array over [n >= 1] nodes (entries outside 0..n-1 other than -1 are
    allowed) and any weights: the call ends inside its arrays, returns the number of nodes whose
    chain of parents ends in a root and lists exactly these nodes, each once; the descendants of
    a listed node form a contiguous block that ends with it; siblings are ordered by (clipped)
    weight and index, roots by index. *)
Theorem C37_post_order : forall n tree Weight Post,
  1 <= n -> n <= length tree -> (forall W, Weight = Some W -> n <= length W) -> n <= length Post ->
  exists k post, tree_post_order tree n Weight Post = Ok (k, post) /\ k <= n /\ length post = length Post /\
    NoDup (firstn k post) /\ (forall x, In x (firstn k post) <-> x < n /\ rooted n tree x) /\
    (forall i, i < k -> exists a, a <= i /\ forall m, m < k -> (desc n tree post.[m] post.[i] <-> a <= m <= i)) /\
    (forall i j p, i < k -> j < k -> p < n -> tree.[post.[i]] = Z.of_nat p -> tree.[post.[j]] = Z.of_nat p ->
       sib_before n Weight post.[i] post.[j] -> i < j) /\
    (forall i j, i < k -> j < k -> tree.[post.[i]] = (-1)%Z -> tree.[post.[j]] = (-1)%Z -> post.[i] < post.[j] -> i < j).
Proof.
  intros n tree Weight Post Hn HT HW HP.
  assert (G : exists ord, NoDup ord /\ (forall x, In x ord -> x < n) /\ (forall x p, x < n -> tree.[x] = Z.of_nat p -> p < n -> In x ord) /\
     (forall u v p, u < n -> v < n -> p < n -> tree.[u] = Z.of_nat p -> tree.[v] = Z.of_nat p -> sib_before n Weight u v -> before u v ord) /\
     wp (match Weight with
           | None => link_plain n tree (repeat EMPTY (n + 1), repeat 0%Z n)
           | Some Weight => b <- link_buckets n tree Weight (repeat EMPTY n, repeat 0%Z n) ;; link_weighted n tree (fst b) (repeat EMPTY (n + 1), snd b)
           end) (fun r => linked n tree (snd r) (fst r) ord)).
  { destruct Weight as [W|].
    - specialize (HW W eq_refl). exists (word n tree W 0 n). splits.
      + apply word_NoDup.
      + intros x Hx. apply in_word in Hx; auto. tauto.
      + intros x p Hx Ep Hp. apply in_word; auto. pose proof (cw_lt n tree HT W HW Hn x). splits; auto; try lia. unfold is_child. lia.
      + intros u v p Hu Hv Hp Eu Ev Hs. unfold word. assert (Bu : is_child n tree u = true) by (unfold is_child; lia). assert (Bv : is_child n tree v = true) by (unfold is_child; lia).
        pose proof (cw_lt n tree HT W HW Hn u). pose proof (cw_lt n tree HT W HW Hn v). cbn in Hs. destruct Hs as [Hs|[Hs Huv]].
        * apply (before_flat_map _ (cw n W u) (cw n W v)); [apply before_seq; unfold cw, clip in *; lia| |]; apply filter_In; rewrite in_seq; unfold in_bucket; rewrite ?Bu, ?Bv, Nat.eqb_refl; split; auto; lia.
        * apply (before_flat_map1 _ (cw n W u)); [apply in_seq; lia|]. apply before_filter; [apply before_seq; lia| |]; unfold in_bucket; rewrite ?Bu, ?Bv, ?Nat.eqb_refl; auto. cbn [andb]. apply Nat.eqb_eq. unfold cw, clip in *. lia.
      + wp1. eapply wp_mono; [apply link_buckets_wp; auto|]. intros [Wh Nx] HL. cbn [fst snd] in *. apply link_weighted_wp; auto.
    - exists (seq 0 n). splits.
      + apply seq_NoDup.
      + intros x Hx. apply in_seq in Hx. lia.
      + intros x p Hx _ _. apply in_seq. lia.
      + intros u v p Hu Hv Hp _ _ Hs. cbn in Hs. apply before_seq; lia.
      + apply link_plain_wp; auto. }
  destruct G as (ord & ON & OB & OC & OS & GL).
  set (P := fun r : nat * list nat => let '(k, post) := r in k <= n /\ length post = length Post /\
    NoDup (firstn k post) /\ (forall x, In x (firstn k post) <-> x < n /\ rooted n tree x) /\
    (forall i, i < k -> exists a, a <= i /\ forall m, m < k -> (desc n tree post.[m] post.[i] <-> a <= m <= i)) /\
    (forall i j p, i < k -> j < k -> p < n -> tree.[post.[i]] = Z.of_nat p -> tree.[post.[j]] = Z.of_nat p ->
       sib_before n Weight post.[i] post.[j] -> i < j) /\
    (forall i j, i < k -> j < k -> tree.[post.[i]] = (-1)%Z -> tree.[post.[j]] = (-1)%Z -> post.[i] < post.[j] -> i < j)).
  assert (G : wp (tree_post_order tree n Weight Post) P).
  { unfold tree_post_order. destruct (Nat.eqb_spec n 0); [lia|]. cbv zeta. wp1. eapply wp_mono; [exact GL|]. intros [Head Next] HL. cbn [fst snd] in HL. wp1.
    eapply wp_mono; [apply (dfs_loop_wp n tree ord ON OB OC Next Head HL HT Post HP)|]. intros [[k post] Hd] HI. pose proof (dinv_length _ _ _ _ _ _ _ _ _ HI) as Hk. wp1. unfold P.
    destruct HI as (L & A & B & C & D & E & F & _). rewrite E.
    assert (EL : forall i, i < k -> post.[i] = L.[i]) by (intros i Hi; rewrite <- E; now rewrite aget_firstn).
    assert (HR : forall x, (exists r, In r (roots tree n) /\ desc n tree x r) -> rooted n tree x).
    { intros x (r & Hr & Hx). apply filter_In in Hr. destruct Hr as [_ Hr]. exists r. split; auto. unfold EMPTY in Hr. lia. }
    assert (HB : forall x, In x L -> x < n) by (intros x Hx; now apply C).
    assert (HPO : forall u d, u < n -> dep n tree u d -> forall l, PO (ch tree ord) u l -> forall x, In x l <-> x < n /\ desc n tree x u).
    { intros u d Hu Du l Hl. destruct (PO_exists n tree ord ON OB OC n u d Hu Du ltac:(lia)) as (l' & Q1 & _ & Q3). now rewrite (proj1 (PO_fun _) _ _ Hl _ Q1). }
    splits; auto.
    - intros x. rewrite C. split; intros [H1 H2]; split; auto. destruct H2 as (r & Hr & Er). exists r. split; auto. apply filter_In. rewrite in_seq. split; [|unfold EMPTY; lia].
      split; [lia|]. clear - Hr H1. induction Hr; auto.
    - intros i Hi. destruct (block_pos n tree ord OB OC HT L post.[i] i A B) as (a & Ha & Hb); auto; [lia|symmetry; auto| |].
      + apply rooted_dep. apply HR. apply C. rewrite EL by auto. apply aget_In. lia.
      + exists a. split; auto. intros m Hm. rewrite (EL m Hm). apply Hb. lia.
    - intros i j p Hi Hj Hp Ei Ej Hs. rewrite (EL i Hi), (EL j Hj) in *.
      assert (Ii : In L.[i] L) by (apply aget_In; lia). assert (Ij : In L.[j] L) by (apply aget_In; lia).
      assert (Bs : before L.[i] L.[j] (ch tree ord p)) by (apply before_filter; [apply (OS _ _ p); auto| |]; unfold child_of; lia).
      assert (RP : exists d, dep n tree p d).
      { assert (R : rooted n tree L.[i]) by (apply HR; apply C; auto). apply rooted_dep in R. destruct R as [d Hd']. inversion Hd' as [r Hr|u q d' H1 H2 H3]; subst; [lia|]. exists d'. replace p with q by lia. auto. }
      destruct RP as [dp RP].
      assert (Inp : In p L).
      { apply C. split; auto. assert (R : rooted n tree p) by (apply rooted_dep; eauto). destruct R as (r & Hr & Er). exists r. split; auto. apply filter_In. rewrite in_seq. split; [|unfold EMPTY; lia]. split; [lia|]. clear - Hr Hp. induction Hr; auto. }
      destruct (proj2 (PO_blocks _) _ _ A p Inp) as (X & Y & Z' & EY & PY). destruct (PO_last _ _ _ PY) as (Y' & -> & PYs).
      pose proof (POs_before _ _ _ _ _ PYs Bs) as BY.
      apply (before_pos L.[i] L.[j] L i j); auto; try lia. apply (before_app_l _ _ _ [p]) in BY. apply (before_app_l _ _ _ Z') in BY. apply (before_app_r _ _ X) in BY. rewrite <- EY in BY. exact BY.
    - intros i j Hi Hj Ei Ej Hs. rewrite (EL i Hi), (EL j Hj) in *.
      assert (Ii : In L.[i] L) by (apply aget_In; lia). assert (Ij : In L.[j] L) by (apply aget_In; lia).
      apply (before_pos L.[i] L.[j] L i j); auto; try lia. apply (POs_before _ _ _ _ _ A). unfold roots. apply before_filter; [apply before_seq; try lia; specialize (HB _ Ij); lia| |]; unfold EMPTY; lia. }
  destruct (tree_post_order tree n Weight Post) as [[k post]|]; [|contradiction]. exists k, post. split; auto.
Qed.
Print Assumptions C37_post_order.

Example C37_case : tree_post_order [4; 4; 3; 4; -1; -1]%Z 6 None (repeat 0 6) = Ok (6, [0; 1; 2; 3; 4; 5]) /\
  tree_post_order [5; 5; 3; 5; -1; 4]%Z 6 (Some [7; 2; 0; 1; 0; 0]%Z) (repeat 9 7) = Ok (6, [2; 3; 1; 0; 5; 4; 9]).
Proof. split; vm_compute; reflexivity. Qed.

(** A forest: every chain of parents ends in a root.  Then the result is a permutation of all
    nodes. *)
Theorem C37_forest : forall n tree Weight Post,
  1 <= n -> n <= length tree -> (forall W, Weight = Some W -> n <= length W) -> n <= length Post -> (forall u, u < n -> rooted n tree u) ->
  exists post, tree_post_order tree n Weight Post = Ok (n, post) /\ is_perm n (firstn n post) /\
    (forall i, i < n -> exists a, a <= i /\ forall m, m < n -> (desc n tree post.[m] post.[i] <-> a <= m <= i)) /\
    (forall i j, i < n -> j < n -> tree.[post.[i]] = Z.of_nat post.[j] -> i < j).
Proof.
  intros n tree Weight Post Hn HT HW HP HF. destruct (C37_post_order n tree Weight Post Hn HT HW HP) as (k & post & E & Hk & HL & H1 & H2 & H3 & H4 & _).
  assert (k = n).
  { assert (length (firstn k post) = k) by (rewrite firstn_length; lia). assert (n <= k); [|lia]. rewrite <- H. rewrite <- (seq_length n 0) at 1. apply NoDup_incl_length; [apply seq_NoDup|].
    intros x Hx. apply in_seq in Hx. apply H2. split; [lia|]. apply HF. lia. }
  subst k. assert (IP : is_perm n (firstn n post)).
  { apply is_perm_intro; auto; [rewrite firstn_length; lia|]. intros x Hx. now apply H2. }
  exists post. splits; auto.
  intros i j Hi Hj Et. destruct (H3 j Hj) as (a & Ha & Hb). specialize (Hb i Hi).
  assert (Hpj : post.[j] < n) by (rewrite <- (aget_firstn post n j) by auto; apply (is_perm_lt n); auto).
  assert (D : desc n tree post.[i] post.[j]) by (econstructor; [exact Et|auto|constructor]). apply Hb in D.
  destruct (Nat.eq_dec i j) as [->|]; [|lia]. exfalso.
  assert (R : rooted n tree post.[j]) by (apply HF; auto). apply rooted_dep in R. destruct R as [d Hd]. inversion Hd as [r Hr|u p d' G1 G2 G3]; subst; [lia|]. replace p with post.[j] in G3 by lia.
  pose proof (dep_fun _ _ _ _ Hd _ G3). lia.
Qed.
Print Assumptions C37_forest.

(** parents larger than their children (every elimination tree) make a forest *)
Lemma larger_parents_rooted n tree : (forall u, u < n -> tree.[u] = (-1)%Z \/ (Z.of_nat u < tree.[u] < Z.of_nat n)%Z) -> forall u, u < n -> rooted n tree u.
Proof.
  intros H. assert (G : forall m u, u < n -> n - u <= m -> rooted n tree u).
  { induction m as [|m IH]; intros u Hu Hm; [lia|]. destruct (H u Hu) as [E|E]; [exists u; split; auto; constructor|].
    destruct (IH (Z.to_nat tree.[u])) as (r & Hr & Er); try lia. exists r. split; auto. econstructor; [|  |exact Hr]; lia. }
  intros u Hu. apply (G n); auto. lia.
Qed.

Example C37_forest_case : forall u, u < 6 -> rooted 6 [4; 4; 3; 4; -1; -1]%Z u.
Proof. apply larger_parents_rooted. intros [|[|[|[|[|[|u]]]]]] Hu; try lia; vm_compute; intuition discriminate. Qed.

(** nodes on a cycle are left out silently: the count returned is the only sign *)
Theorem C37_cycle_refuted :
  ~ (forall n tree Post k post, 1 <= n -> n <= length tree -> n <= length Post -> (forall u, u < n -> (-1 <= tree.[u] < Z.of_nat n)%Z) ->
       tree_post_order tree n None Post = Ok (k, post) -> k = n).
Proof.
  intros H. specialize (H 3 [1; 0; -1]%Z [0; 0; 0] 1 [2; 0; 0]). assert (1 = 3); [|discriminate]. apply H; auto; try (simpl; lia).
  intros [|[|[|u]]] Hu; try lia; vm_compute; (split; [intros X; discriminate X|reflexivity]).
Qed.
Print Assumptions C37_cycle_refuted.

(** * C65: relabelling a forest by its post-order *)

Lemma reorder_tree_wp n parent Post ipost Wi :
  n <= length Wi -> n <= length parent -> n <= length Post -> (forall i, i < n -> Post.[i] < n) ->
  (forall i, i < n -> parent.[i] = EMPTY \/ (0 <= parent.[i])%Z /\ Z.to_nat parent.[i] < length ipost) ->
  exists q, reorder_tree n parent Post ipost Wi = Ok q /\ length q = length parent /\
    forall i, i < n -> q.[i] = (if (parent.[Post.[i]] =? EMPTY)%Z then EMPTY else Z.of_nat ipost.[Z.to_nat parent.[Post.[i]]]).
Proof.
  intros H1 H2 H3 H4 H5.
  set (f := fun i => if (parent.[Post.[i]] =? EMPTY)%Z then EMPTY else Z.of_nat ipost.[Z.to_nat parent.[Post.[i]]]).
  set (P := fun q : list Z => length q = length parent /\ forall i, i < n -> q.[i] = f i).
  assert (G : wp (reorder_tree n parent Post ipost Wi) P).
  { unfold reorder_tree. wp1. apply (wp_for (fun i w => length w = length Wi /\ forall l, l < i -> w.[l] = f l)).
    - lia.
    - split; auto. lia.
    - intros i w Hi [I1 I2]. wp1. wp1; [lia|]. wp1. specialize (H4 i ltac:(lia)). wp1; [lia|]. wp1.
      assert (G : wp (if (parent.[Post.[i]] =? EMPTY)%Z then Ok EMPTY else x <- rdZ ipost parent.[Post.[i]] ;; Ok (Z.of_nat x)) (fun v => v = f i)).
      { unfold f. destruct (H5 Post.[i] H4) as [E|[E E']]; [rewrite E; reflexivity|]. destruct (Z.eqb_spec parent.[Post.[i]] EMPTY); [reflexivity|]. wp1. apply rdZ_wp; auto. wp1. reflexivity. }
      eapply wp_mono; [exact G|]. intros v ->. wp1; [lia|]. rewrite upd_length. split; auto. intros l Hl. destruct (Nat.eq_dec l i) as [->|]; [now rewrite aget_upd_eq by lia|]. rewrite aget_upd_ne by lia. apply I2. lia.
    - intros w [I1 I2]. apply (wp_for (fun i q => length q = length parent /\ forall l, l < i -> q.[l] = f l)).
      + lia.
      + split; auto. lia.
      + intros i q Hi [J1 J2]. wp1. wp1; [lia|]. wp1; [lia|]. rewrite upd_length. split; auto. intros l Hl. destruct (Nat.eq_dec l i) as [->|]; [rewrite aget_upd_eq, I2 by lia; auto|]. rewrite aget_upd_ne by lia. apply J2. lia.
      + intros q J. exact J. }
  destruct (reorder_tree n parent Post ipost Wi) as [q|]; [|contradiction]. exists q. auto.
Qed.

(** Relabelling a forest by the post-order just computed gives the same forest on the new labels,
    and every parent now has a larger label than its children. *)
Theorem C65_reordered_tree : forall n tree Weight Post0 ipost Wi post,
  1 <= n -> n <= length tree -> (forall W, Weight = Some W -> n <= length W) -> n <= length Post0 -> n <= length Wi ->
  (forall u, u < n -> (-1 <= tree.[u] < Z.of_nat n)%Z) -> (forall u, u < n -> rooted n tree u) ->
  tree_post_order tree n Weight Post0 = Ok (n, post) ->
  length ipost = n -> (forall i, i < n -> ipost.[post.[i]] = i) ->
  exists q, reorder_tree n tree post ipost Wi = Ok q /\
    (forall i j, i < n -> j < n -> (q.[i] = Z.of_nat j <-> tree.[post.[i]] = Z.of_nat post.[j])) /\
    (forall i, i < n -> (q.[i] = (-1)%Z <-> tree.[post.[i]] = (-1)%Z)) /\
    (forall i, i < n -> q.[i] = (-1)%Z \/ (Z.of_nat i < q.[i] < Z.of_nat n)%Z).
Proof.
  intros n tree Weight Post0 ipost Wi post Hn HT HW HP HWi HB HF E HL HI.
  destruct (C37_forest n tree Weight Post0 Hn HT HW HP HF) as (post' & E' & IP & _ & HO). rewrite E in E'. injection E' as <-.
  assert (PB : forall i, i < n -> post.[i] < n) by (intros i Hi; rewrite <- (aget_firstn post n i) by auto; apply (is_perm_lt n); auto).
  assert (PS : forall x, x < n -> exists i, i < n /\ post.[i] = x).
  { intros x Hx. destruct (is_perm_pos n _ x IP Hx) as (i & Hi & Ei). exists i. split; auto. rewrite <- Ei. now rewrite aget_firstn. }
  assert (PL : n <= length post) by (destruct IP as [I1 _]; rewrite firstn_length in I1; lia).
  destruct (reorder_tree_wp n tree post ipost Wi) as (q & Q1 & Q2 & Q3); auto.
  { intros i Hi. specialize (HB i Hi). unfold EMPTY. destruct (Z.eq_dec tree.[i] (-1)); [auto|]. right. lia. }
  assert (QJ : forall i j, i < n -> j < n -> (q.[i] = Z.of_nat j <-> tree.[post.[i]] = Z.of_nat post.[j])).
  { intros i j Hi Hj. rewrite Q3 by auto. specialize (HB post.[i] (PB i Hi)). destruct (Z.eqb_spec tree.[post.[i]] EMPTY) as [Ee|Ee]; unfold EMPTY in *; [lia|].
    destruct (PS (Z.to_nat tree.[post.[i]]) ltac:(lia)) as (m & Hm & Em). rewrite <- Em, HI by auto. split; intros X.
    - assert (m = j) by lia. subst m. lia.
    - f_equal. apply (NoDup_aget (firstn n post)); [apply IP|rewrite firstn_length; lia|rewrite firstn_length; lia|]. rewrite !aget_firstn by auto. lia. }
  exists q. splits; auto.
  - intros i Hi. rewrite Q3 by auto. destruct (Z.eqb_spec tree.[post.[i]] EMPTY) as [Ee|Ee]; unfold EMPTY in *; [tauto|]. split; intros; [lia|congruence].
  - intros i Hi. specialize (HB post.[i] (PB i Hi)). destruct (Z.eq_dec tree.[post.[i]] (-1)) as [Ee|Ee].
    + left. rewrite Q3 by auto. now rewrite Ee.
    + right. destruct (PS (Z.to_nat tree.[post.[i]]) ltac:(lia)) as (m & Hm & Em). assert (T : tree.[post.[i]] = Z.of_nat post.[m]) by lia.
      rewrite (proj2 (QJ i m Hi Hm) T). specialize (HO i m Hi Hm T). lia.
Qed.
Print Assumptions C65_reordered_tree.

Example C65_case : reorder_tree 6 [5; 5; 3; 5; -1; 4]%Z [2; 3; 1; 0; 5; 4] [3; 2; 0; 1; 5; 4] (repeat 0%Z 6) = Ok [1; 4; 4; 4; 5; -1]%Z.
Proof. vm_compute. reflexivity. Qed.
