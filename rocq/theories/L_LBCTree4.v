(** The tree coarsening: schedules from slabs, cuts, one slab, the driver. *)
From Coq Require Import ZifyBool ZifyNat.
From Verif Require Import Base Lib Lib2 Lib3 Spec M_Tree M_LBC M_LBCTree P_Tree L_Post2 P_Post P_TreeH L_LevelSet L_LevelSet2 L_LBC L_LBC2 L_LBC3 L_LBC4 L_LBC5
  L_LBCTree L_LBCTree2 L_LBCTree3 P_Collect.

(** * Results that may be out-of-bounds errors when [B] *)
Definition wpx {A} (B : Prop) (m : res A) (Q : A -> Prop) : Prop := match m with Ok a => Q a | Err OOB => B | _ => False end.

Lemma wpx_wp {A} B (m : res A) Q : wp m Q -> wpx B m Q.
Proof. destruct m as [a|e]; simpl; [auto|easy]. Qed.

Lemma wpx_oo {A} (B : Prop) (m : res A) Q : B -> oob_or m Q -> wpx B m Q.
Proof. intros HB. destruct m as [a|e]; simpl; [auto|]. now intros ->. Qed.

Lemma wpx_bind {A C} B (m : res A) (f : A -> res C) Q : wpx B m (fun x => wpx B (f x) Q) -> wpx B (bind m f) Q.
Proof. destruct m as [a|e]; simpl; auto. Qed.

Lemma wpx_mono {A} B (m : res A) (Q Q' : A -> Prop) : wpx B m Q -> (forall a, Q a -> Q' a) -> wpx B m Q'.
Proof. destruct m as [a|e]; simpl; auto. Qed.

Lemma wpx_bindw {A C} B (m : res A) (f : A -> res C) Q : wp m (fun x => wpx B (f x) Q) -> wpx B (bind m f) Q.
Proof. intros. apply wpx_bind. now apply wpx_wp. Qed.

Lemma wpx_for {S} B (I : nat -> S -> Prop) (body : nat -> S -> res S) lo hi s (Q : S -> Prop) : lo <= hi -> I lo s ->
  (forall j s, lo <= j < hi -> I j s -> wpx B (body j s) (fun s' => I (Datatypes.S j) s')) -> (forall s, I hi s -> Q s) ->
  wpx B (for_ lo hi body s) Q.
Proof.
  intros Hlh H0 Hstep HQ. unfold for_.
  assert (G : forall k i s, i + k = hi -> lo <= i -> I i s -> wpx B (for_n k i body s) Q).
  { induction k as [|k IH]; intros i s' E Hi HI; simpl.
    - apply HQ. now replace hi with i by lia.
    - apply wpx_bind. eapply wpx_mono; [apply Hstep; [lia|auto]|]. intros a Ha. apply IH; auto; lia. }
  apply G; auto. lia.
Qed.

Lemma wpx_false {A} (m : res A) Q : wpx False m Q -> wp m Q.
Proof. destruct m as [a|[]]; simpl; auto. Qed.

Lemma wpx_err {A} (m : res A) B : wpx B m (fun _ => False) -> m = Err OOB.
Proof. destruct m as [a|[]]; simpl; tauto. Qed.

(** * Schedules from slabs of levels *)
Section Slabs.
Variables (n : nat) (E : nat -> nat -> Prop) (n2l : list nat).

(** parts of the levels [a,b): every node once, dependences inside a part and in order *)
Definition gparts (a b : nat) (ps : list (list nat)) : Prop :=
  NoDup (concat ps) /\ (forall v, In v (concat ps) <-> slab n n2l a b v) /\
  (forall p pre v post, In p ps -> p = pre ++ v :: post -> forall u, slab n n2l a b u -> E u v -> In u pre).

(** the arrays after [l] slabs; [c] is the next level *)
Record gst (c l : nat) (cuts : nat -> nat) (ps : list (list nat)) (flp pp np : list nat) : Prop := {
  gs_rep : rep ps pp np;
  gs_nd : NoDup (concat ps);
  gs_in : forall v, In v (concat ps) <-> v < n /\ n2l.[v] < c;
  gs_fl0 : flp.[0] = 0;
  gs_fll : flp.[l] = length ps;
  gs_flm : forall j, j < l -> flp.[j] <= flp.[S j];
  gs_lv : forall j i v, j < l -> flp.[j] <= i < flp.[S j] -> In v ps.[i] -> slab n n2l (cuts j) (cuts (S j)) v;
  gs_ord : forall j i pre v post u, j < l -> flp.[j] <= i < flp.[S j] -> ps.[i] = pre ++ v :: post ->
     slab n n2l (cuts j) (cuts (S j)) u -> E u v -> In u pre }.

Lemma gst_step c b l cuts ps new flp pp np pp' np' : gst c l cuts ps flp pp np -> gparts c b new -> cuts l = c -> cuts (S l) = b -> c <= b -> S l < length flp ->
  rep (ps ++ new) pp' np' -> gst b (S l) cuts (ps ++ new) (upd flp (S l) (length ps + length new)) pp' np'.
Proof.
  intros [I13 I15 I16 I17 I18 I19 I20 I21] (N1 & N2 & N3) Cl Cb Hcb Hl R.
  assert (Hdis : forall v, In v (concat ps) -> ~ In v (concat new)).
  { intros v A B. apply I16 in A. apply N2 in B. destruct B. lia. }
  assert (ND : NoDup (concat (ps ++ new))) by (rewrite concat_app; apply NoDup_app_intro; auto).
  assert (INn : forall v, In v (concat (ps ++ new)) <-> v < n /\ n2l.[v] < b).
  { intros v. rewrite concat_app, in_app_iff, I16, N2. unfold slab. split; [intros [A|A]; lia|].
    intros [A B]. destruct (le_lt_dec c n2l.[v]); [right; lia|left; lia]. }
  assert (FL : forall j, j <= l -> (upd flp (S l) (length ps + length new)).[j] = flp.[j]).
  { intros j Hj. apply aget_upd_ne. lia. }
  assert (FS : (upd flp (S l) (length ps + length new)).[S l] = length ps + length new) by (apply aget_upd_eq; lia).
  assert (Hle : forall j, j < l -> flp.[S j] <= length ps).
  { intros j Hj. rewrite <- I18. apply (mono_le (aget flp) l); try lia. intros i Hi. apply I19. auto. }
  constructor; auto.
  - rewrite FL by lia. auto.
  - rewrite app_length. auto.
  - intros j Hj. destruct (Nat.eq_dec j l) as [->|].
    + rewrite FS, FL by lia. rewrite I18. lia.
    + rewrite !FL by lia. apply I19. lia.
  - intros j i v Hj Hi Hv. destruct (Nat.eq_dec j l) as [->|].
    + rewrite FS, FL in Hi by lia. rewrite I18 in Hi. rewrite aget_app2 in Hv by lia. rewrite Cl, Cb.
      apply N2. apply in_concat. exists new.[i - length ps]. split; auto. apply aget_In. lia.
    + rewrite !FL in Hi by lia. specialize (Hle j ltac:(lia)). rewrite aget_app1 in Hv by lia. apply (I20 j i v); auto. lia.
  - intros j i pre v post u Hj Hi Ep Su He. destruct (Nat.eq_dec j l) as [->|].
    + rewrite FS, FL in Hi by lia. rewrite I18 in Hi. rewrite aget_app2 in Ep by lia. rewrite Cl, Cb in Su.
      eapply (N3 new.[i - length ps]); eauto. apply aget_In. lia.
    + rewrite !FL in Hi by lia. specialize (Hle j ltac:(lia)). rewrite aget_app1 in Ep by lia. eapply (I21 j i); eauto. lia.
Qed.

(** the arrays at the end form a valid schedule *)
Lemma gst_final c k cuts ps flp pp np :
  gst c k cuts ps flp pp np -> (forall v, v < n -> n2l.[v] < c) -> (forall u v, E u v -> n2l.[u] < n2l.[v]) ->
  k < length flp -> length ps < length pp -> n <= length np ->
  (forall j, j < k -> cuts j <= cuts (S j)) ->
  valid_schedule n E k flp pp np.
Proof.
  intros [[R1 R2] I15 I16 I17 I18 I19 I20 I21] Hc HE Hk Hps Hnp Hcuts.
  assert (INn : forall v, In v (concat ps) <-> v < n).
  { intros v. rewrite I16. split; [tauto|]. intros Hv. split; auto. }
  assert (LN : length (concat ps) = n).
  { assert (P : Permutation (concat ps) (seq 0 n)).
    { apply NoDup_Permutation; auto; [apply seq_NoDup|]. intros x. rewrite INn, in_seq. lia. }
    apply Permutation_length in P. now rewrite seq_length in P. }
  assert (PM : forall i, i < length ps -> pp.[S i] = pp.[i] + length ps.[i]).
  { intros i Hi. rewrite !R1 by lia.
    assert (Ef : firstn (S i) ps = firstn i ps ++ [ps.[i]]).
    { clear - Hi. revert i Hi. induction ps as [|h t IH]; intros [|i] Hi; simpl in *; try lia; auto. rewrite aget_cons_S, <- IH by lia. auto. }
    rewrite Ef, concat_app, app_length. simpl. rewrite app_nil_r. auto. }
  assert (PMm : forall i, i < length ps -> pp.[i] <= pp.[S i]) by (intros i Hi; rewrite PM by auto; lia).
  assert (POS : forall p j, p < length ps -> j < length ps.[p] -> np.[pp.[p] + j] = ps.[p].[j]).
  { intros p j Hp Hj. pose proof (mono_le (aget pp) (length ps) PMm (S p) (length ps) ltac:(lia) ltac:(lia)) as Hm.
    rewrite PM in Hm by auto. rewrite (R1 (length ps)) in Hm by lia. rewrite firstn_all in Hm.
    rewrite R2 by lia. rewrite R1 by lia. rewrite <- (firstn_skipn p ps) at 1. rewrite concat_app.
    rewrite aget_app2 by lia. replace (length (concat (firstn p ps)) + j - length (concat (firstn p ps))) with j by lia.
    assert (Es : skipn p ps = ps.[p] :: skipn (S p) ps).
    { clear - Hp. revert p Hp. induction ps as [|h t IH]; intros [|i] Hi; simpl in *; try lia; auto. rewrite IH by lia. now rewrite aget_cons_S. }
    rewrite Es. simpl. now rewrite aget_app1 by auto. }
  assert (FM : forall j, j < k -> flp.[j] <= flp.[S j]) by (intros j Hj; now apply I19).
  assert (SC : sched_complete n np).
  { split.
    - intros i Hi. rewrite R2 by lia. apply INn. apply aget_In. lia.
    - intros i j Hi Hj Ee. rewrite !R2 in Ee by lia. apply (NoDup_aget (concat ps)); auto; lia. }
  split; [|split; [exact SC|]].
  - unfold sched_wf. rewrite I18. splits; auto; try lia.
    + rewrite R1 by lia. auto.
    + rewrite R1 by lia. now rewrite firstn_all.
  - assert (AT : forall l p i x, l < k -> sched_at flp pp np l p i x ->
       p < length ps /\ i < n /\ i - pp.[p] < length ps.[p] /\ ps.[p].[i - pp.[p]] = x /\ slab n n2l (cuts l) (cuts (S l)) x).
    { intros l p i x Hl (A & B & C). pose proof (mono_le (aget flp) k FM (S l) k ltac:(lia) ltac:(lia)) as H.
      rewrite I18 in H. assert (Hp : p < length ps) by lia. pose proof (PM p Hp) as Ee.
      pose proof (mono_le (aget pp) (length ps) PMm (S p) (length ps) ltac:(lia) ltac:(lia)) as Hm.
      rewrite (R1 (length ps)) in Hm by lia. rewrite firstn_all in Hm.
      assert (Ex : ps.[p].[i - pp.[p]] = x).
      { rewrite <- POS by lia. rewrite <- C. f_equal. lia. }
      splits; auto; try lia. apply (I20 l p x); auto. rewrite <- Ex. apply aget_In. lia. }
    intros u v lu pu ku lv pv kv He Hlu Hlv Au Av.
    destruct (AT lu pu ku u Hlu Au) as (U1 & U2 & U3 & U4 & U5). destruct (AT lv pv kv v Hlv Av) as (V1 & V2 & V3 & V4 & V5).
    pose proof (HE u v He) as Hlev.
    destruct (lt_eq_lt_dec lu lv) as [[L|L]|L]; [now left| |].
    + right. split; auto. subst lv.
      assert (Ep : ps.[pv] = firstn (kv - pp.[pv]) ps.[pv] ++ v :: skipn (S (kv - pp.[pv])) ps.[pv]).
      { rewrite <- V4. remember (kv - pp.[pv]) as d eqn:Ed. clear - V3. remember ps.[pv] as l eqn:El. clear El.
        revert d V3. induction l as [|h t IH]; intros [|d] Hd; simpl in *; try lia; auto. rewrite aget_cons_S. f_equal. apply IH. lia. }
      assert (Hu : In u (firstn (kv - pp.[pv]) ps.[pv])).
      { eapply (I21 lu pv); eauto. apply Av. }
      apply In_aget in Hu. destruct Hu as (i & Hi & Ei). rewrite firstn_length in Hi. rewrite aget_firstn in Ei by lia.
      assert (Eku : ku = pp.[pv] + i).
      { apply SC; auto.
        - pose proof (mono_le (aget pp) (length ps) PMm (S pv) (length ps) ltac:(lia) ltac:(lia)) as Hm.
          rewrite (R1 (length ps)) in Hm by lia. rewrite firstn_all in Hm. rewrite PM in Hm by auto. lia.
        - rewrite POS by lia. rewrite Ei. apply Au. }
      destruct Au as (_ & Bu & _). destruct Av as (_ & Bv & _).
      split; [|lia]. apply (bucket_unique (aget pp) (length ps) pu pv ku); auto. rewrite PM by auto. lia.
    + exfalso. pose proof (mono_le cuts k Hcuts (S lv) lu ltac:(lia) ltac:(lia)). destruct U5, V5. lia.
Qed.


End Slabs.

(** putting lists into bins keeps the order inside the lists *)
Section Pack.
Context {T : Type} {DT : Dflt T}.
Variables (add : T -> T -> T) (ltb : T -> T -> bool) (int_max : T).
Variable sortp : list (T * list nat) -> list (T * list nat).
Hypothesis sort_perm : forall l, Permutation (sortp l) l.

Lemma gpack_wp n E n2l a b bins lists oc nc (Q : list (list nat) * list T -> Prop) :
  1 <= bins -> length lists <= length oc -> length lists <= length nc -> gparts n E n2l a b lists ->
  (forall ps nc', length nc' = length nc -> gparts n E n2l a b ps -> length ps <= bins -> length ps <= length lists -> Q (ps, nc')) ->
  wp (if bins <? length lists then worst_fit_bin_pack add ltb int_max sortp lists oc (repeat [] bins) nc bins else Ok (lists, nc)) Q.
Proof.
  intros H1 H2 H3 (ND & IN & ORD) HQ. destruct (Nat.ltb_spec bins (length lists)) as [L|L].
  - apply (bin_pack_wp add ltb int_max sortp sort_perm lists oc (repeat [] bins) nc bins (fun _ => True)); auto; try lia.
    + rewrite repeat_length. lia.
    + intros oc' c Eo _ _ _. eapply wp_mono; [apply (find_min_lt add ltb int_max oc' bins (fun _ => True)); auto; lia|]. auto.
    + intros mg nc' asg (P1 & P2 & P3 & P4 & _) Pp _. rewrite repeat_length in P1. apply HQ; try lia.
      assert (Em : mg = map (fun l => concat (map (aget lists) l)) asg).
      { apply list_ext; [rewrite map_length; lia|]. intros i Hi. rewrite P4 by lia. rewrite aget_repeat by lia.
        rewrite (aget_map (fun l => concat (map (aget lists) l))) by lia. auto. }
      assert (PM : Permutation (concat mg) (concat lists)) by (rewrite Em; now apply map_perm_concat).
      split; [eapply Permutation_NoDup; [symmetry; exact PM|auto]|]. split.
      * intros v. rewrite <- IN. split; apply Permutation_in; [auto|now symmetry].
      * intros p pre v post Hp Ep u Su He. rewrite Em in Hp. apply in_map_iff in Hp. destruct Hp as (l & El & Hl).
        rewrite Ep in El. apply concat_split in El. destruct El as (l1 & p1 & p2 & l2 & E1 & ->).
        apply in_app_iff. right.
        assert (Hin : In (p1 ++ v :: p2) (map (aget lists) l)) by (rewrite E1; apply in_app_iff; right; now left).
        apply in_map_iff in Hin. destruct Hin as (c & Ec & Hc).
        assert (Hcc : c < length lists).
        { assert (In c (seq 0 (length lists))) by (rewrite <- Pp; apply in_concat; eauto). rewrite in_seq in H. lia. }
        apply (ORD lists.[c] p1 v p2); auto. now apply aget_In.
  - wp1. apply HQ; auto. now split.
Qed.
End Pack.
