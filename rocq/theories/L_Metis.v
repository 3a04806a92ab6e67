(** Proofs about coarsen_k_times and the graphs passed to METIS. *)
From Coq Require Import ZifyBool ZifyNat.
From Verif Require Import Base Lib Lib2 Lib3 Spec SpecMat M_Mat L_Mat L_LBC5 L_Multi L_Multi2 L_Merge M_Metis.

(** * coarsen_k_times *)

Definition new_size (n k : nat) : nat := if n mod k =? 0 then n / k else n / k + 1.

Lemma new_size_lt n k l : 1 <= k -> l < n -> l / k < new_size n k.
Proof.
  intros Hk Hl. unfold new_size. pose proof (Nat.div_mod n k ltac:(lia)). pose proof (Nat.mod_upper_bound n k ltac:(lia)).
  destruct (Nat.eqb_spec (n mod k) 0).
  - apply Nat.div_lt_upper_bound; lia.
  - apply Nat.div_lt_upper_bound; [lia|]. nia.
Qed.
Lemma new_size_le n k g : 1 <= k -> g < new_size n k -> g * k < n.
Proof.
  intros Hk Hg. unfold new_size in Hg. pose proof (Nat.div_mod n k ltac:(lia)). destruct (Nat.eqb_spec (n mod k) 0); nia.
Qed.
Lemma new_size_le_n n k : 1 <= k -> new_size n k <= n.
Proof.
  intros Hk. destruct (le_lt_dec (new_size n k) n) as [|H]; [auto|]. exfalso.
  pose proof (new_size_le n k n Hk H). nia.
Qed.
Lemma group_of n k g l : 1 <= k -> (g * k <= l < Nat.min (g * k + k) n <-> l < n /\ l / k = g).
Proof.
  intros Hk. pose proof (Nat.div_mod l k ltac:(lia)). pose proof (Nat.mod_upper_bound l k ltac:(lia)). split.
  - intros H1. split; [lia|]. symmetry. apply (Nat.div_unique l k g (l - g * k)); lia.
  - intros [H1 <-]. nia.
Qed.

Section Coarsen.
Variables (n nnz : nat) (Ap Ai : list nat) (k : nat).
Hypothesis W : wf_csc n Ap Ai.
Hypothesis Hnnz : Ap.[n] <= nnz.
Hypothesis Hk : 1 <= k.

Lemma Ap_le i j : i <= j -> j <= n -> Ap.[i] <= Ap.[j].
Proof. intros. destruct W as (W1 & W2 & W3 & W4 & W5). apply (mono_le (aget Ap) n); auto. Qed.

(** inside group [g], before entry [m]; [prev] is what is stored already *)
Definition cin (prev : list nat) (lo m : nat) (s : list nat * nat * list bool * list nat) : Prop :=
  let '(Bi, cur_nnz, ex, vals) := s in
  length Bi = nnz /\ cur_nnz = length prev + length vals /\ length prev <= lo /\ length vals <= m - lo /\ lo <= m /\
  (forall t, t < length prev -> Bi.[t] = prev.[t]) /\ (forall t, t < length vals -> Bi.[length prev + t] = vals.[t]) /\
  length ex = n /\ (forall x, x < n -> ex.[x] = mem x vals) /\ NoDup vals /\
  (forall x, In x vals <-> exists m', lo <= m' < m /\ Ai.[m'] / k = x).

Lemma coarsen_entry_wp prev lo m s : cin prev lo m s -> m < Ap.[n] -> wp (coarsen_entry k Ai m s) (cin prev lo (S m)).
Proof.
  destruct s as [[[Bi cz] ex] vals]. intros (I1 & I2 & I3 & I4 & I0 & I5 & I6 & I7 & I8 & I9 & I10) Hm. destruct W as (W1 & W2 & W3 & W4 & W5).
  unfold coarsen_entry. wp1. apply wp_rd; [lia|]. cbv zeta. specialize (W5 m Hm).
  assert (Hx : Ai.[m] / k < n) by (pose proof (Nat.div_le_upper_bound Ai.[m] k Ai.[m] ltac:(lia) ltac:(nia)); lia).
  wp1. apply wp_rd; [lia|]. rewrite I8 by auto. destruct (mem (Ai.[m] / k) vals) eqn:E.
  - apply wp_ret. apply mem_In in E. do 9 (split; [auto; try lia|]). split; [auto|]. intros x. rewrite I10. split.
    + intros (m' & A & B). exists m'. split; [lia|auto].
    + intros (m' & A & B). destruct (Nat.eq_dec m' m) as [->|]; [|exists m'; split; [lia|auto]]. apply I10. now rewrite <- B.
  - apply mem_false in E. wp1. apply wp_wr; [lia|]. wp1. apply wp_wr; [lia|]. apply wp_ret. cbn [cin].
    rewrite !upd_length, app_length. cbn [length]. split; [auto|]. split; [lia|]. split; [auto|]. split; [lia|]. split; [lia|].
    split; [intros t Ht; rewrite aget_upd_ne by lia; auto|]. split.
    { intros t Ht. rewrite aget_upd by lia. destruct (Nat.eqb_spec (length prev + t) cz) as [Et|Et].
      - replace t with (length vals) by lia. now rewrite aget_app_last.
      - rewrite aget_app1 by lia. apply I6. lia. }
    split; [auto|]. split.
    { intros x Hx'. rewrite aget_upd by lia. destruct (Nat.eqb_spec x (Ai.[m] / k)) as [->|Hne].
      - symmetry. apply mem_In. apply in_or_app. right. now left.
      - rewrite I8 by auto. apply mem_iff. rewrite in_app_iff. cbn [In]. intuition congruence. }
    split. { apply L_LBC4.NoDup_app_intro; [auto|repeat constructor; auto|]. intros y Hy [<-|[]]. auto. }
    intros x. rewrite in_app_iff, I10. cbn [In]. split.
    + intros [(m' & A & B)|[<-|[]]]; [exists m'; split; [lia|auto]|exists m; split; [lia|auto]].
    + intros (m' & A & B). destruct (Nat.eq_dec m' m) as [->|]; [right; left; auto|left; exists m'; split; [lia|auto]].
Qed.

Record ccols (cols : list (list nat)) (g : nat) : Prop := {
  cc_len : length cols = g;
  cc_nd : forall c, c < g -> NoDup cols.[c];
  cc_in : forall c x, c < g -> (In x cols.[c] <-> exists l r, l < n /\ l / k = c /\ entry Ap Ai l r /\ r / k = x) }.

Theorem coarsen_wp (Q : nat * (list nat * list nat) * nat -> Prop) : 0 < n ->
  (forall cols Bp Bi, ccols cols (new_size n k) -> rep cols Bp Bi -> length Bp = new_size n k + 1 -> length Bi = nnz ->
     length (concat cols) <= Ap.[n] -> Q (new_size n k, (Bp, Bi), length (concat cols))) ->
  wp (coarsen_k_times n nnz Ap Ai k) Q.
Proof.
  intros Hn HQ. destruct W as (W1 & W2 & W3 & W4 & W5). unfold coarsen_k_times. replace (k =? 0) with false by lia. cbv zeta. fold (new_size n k).
  assert (H0 : 0 < new_size n k) by (pose proof (new_size_lt n k 0 Hk Hn) as HH; rewrite Nat.div_0_l in HH by (clear -Hk; lia); exact HH). replace (0 <? new_size n k) with true by lia.
  wp1. apply wp_wr; [rewrite repeat_length; lia|]. apply wp_bind.
  apply wp_for with (I := fun g s => let '(Bp, Bi, cz, ex) := s in exists cols, ccols cols g /\ rep cols Bp Bi /\ length Bp = new_size n k + 1 /\
    length Bi = nnz /\ cz = length (concat cols) /\ length (concat cols) <= Ap.[Nat.min (g * k) n] /\ ex = repeat false n).
  - lia.
  - exists []. split; [constructor; auto; intros; lia|]. split.
    { split; [|simpl; intros; lia]. intros i Hi. simpl in Hi. replace i with 0 by lia. rewrite aget_upd_eq by (rewrite repeat_length; lia). auto. }
    rewrite upd_length, !repeat_length. simpl. repeat (split; [auto; try lia|]). auto.
  - intros g [[[Bp Bi] cz] ex] Hg (cols & C & R & L1 & L2 & -> & L3 & ->). pose proof (new_size_le n k g Hk ltac:(lia)) as Hgn.
    rewrite Nat.min_l in L3 by lia. apply wp_bind.
    apply wp_for with (I := fun l s => cin (concat cols) Ap.[g * k] Ap.[l] s).
    + lia.
    + cbn [cin length]. rewrite repeat_length. split; [auto|]. split; [lia|]. split; [auto|]. split; [lia|]. split; [lia|].
      split; [intros t Ht; now apply (proj2 R)|]. split; [intros; lia|]. split; [auto|]. split; [intros x Hx; now rewrite aget_repeat|].
      split; [constructor|]. intros x. split; [intros []|intros (m & A & _); lia].
    + intros l s Hl HI. pose proof (Ap_le l (S l) ltac:(lia) ltac:(lia)). pose proof (Ap_le (S l) n ltac:(lia) ltac:(lia)).
      wp1. apply wp_rd; [lia|]. wp1. apply wp_rd; [lia|].
      apply wp_for with (I := cin (concat cols) Ap.[g * k]); auto. intros m s' Hm HI'. apply coarsen_entry_wp; auto. lia.
    + intros [[[Bi' cz'] ex'] vals] (I1 & I2 & I3 & I4 & I0 & I5 & I6 & I7 & I8 & I9 & I10).
      set (hi := Nat.min (g * k + k) n) in *. pose proof (Ap_le hi n ltac:(lia) ltac:(lia)) as Hhi.
      wp1. apply wp_wr; [lia|]. apply wp_bind.
      apply wp_foreach with (I := fun pre e => length e = n /\ forall x, x < n -> e.[x] = mem x vals && negb (mem x pre)).
      * split; [auto|]. intros x Hx. rewrite I8 by auto. simpl. now rewrite andb_true_r.
      * intros pre x post e Ev [E1 E2].
        assert (Hx : x < n). { assert (In x vals) by (rewrite Ev; apply in_or_app; right; now left). apply I10 in H. destruct H as (m & A & <-).
          specialize (W5 m ltac:(lia)). pose proof (Nat.div_le_upper_bound Ai.[m] k Ai.[m] ltac:(lia) ltac:(nia)). lia. }
        apply wp_wr; [lia|]. rewrite upd_length. split; [auto|]. intros y Hy. rewrite aget_upd by lia. destruct (Nat.eqb_spec y x) as [->|Hne].
        -- assert (M : mem x (pre ++ [x]) = true) by (apply mem_In, in_or_app; right; now left). rewrite M. now rewrite andb_false_r.
        -- rewrite E2 by auto. f_equal. f_equal. apply mem_iff. rewrite in_app_iff. cbn [In]. intuition congruence.
      * intros e [E1 E2]. apply wp_ret. exists (cols ++ [vals]). destruct C as [C1 C2 C3].
        split; [|split; [|split; [|split; [|split; [|split]]]]].
        -- constructor; [rewrite app_length; simpl; lia| |].
           ++ intros c Hc. destruct (Nat.eq_dec c g) as [->|Hne].
              ** rewrite aget_app2 by lia. replace (g - length cols) with 0 by lia. exact I9.
              ** rewrite aget_app1 by lia. apply C2. lia.
           ++ intros c x Hc. destruct (Nat.eq_dec c g) as [->|Hne].
              ** rewrite aget_app2 by lia. replace (g - length cols) with 0 by lia. change ([vals].[0]) with vals. rewrite I10. split.
                 --- intros (m & Hm & Em).
                     assert (Hlr : exists l, g * k <= l < hi /\ Ap.[l] <= m < Ap.[S l]).
                     { assert (Hgh : g * k <= hi) by lia. clear -Hm Hgh. assert (G : forall d lo, Ap.[lo] <= m < Ap.[lo + d] -> exists l, lo <= l < lo + d /\ Ap.[l] <= m < Ap.[S l]).
                       { induction d as [|d IH]; intros lo H; [rewrite Nat.add_0_r in H; lia|]. destruct (le_lt_dec Ap.[lo + d] m) as [L|L].
                         - exists (lo + d). split; [lia|]. rewrite Nat.add_succ_r in H. lia.
                         - destruct (IH lo ltac:(lia)) as (l & A & B). exists l. split; [lia|auto]. }
                       destruct (G (hi - g * k) (g * k)) as (l & A & B); [replace (g * k + (hi - g * k)) with hi by lia; auto|]. exists l. split; [lia|auto]. }
                     destruct Hlr as (l & Hl & Hml). apply (group_of n k g l Hk) in Hl. destruct Hl as [Hl1 Hl2].
                     exists l, Ai.[m]. split; [auto|]. split; [auto|]. split; [exists m; auto|auto].
                 --- intros (l & r & Hl & Hlk & (m & Hm & <-) & Er). assert (Hl2 : g * k <= l < hi) by (apply (group_of n k g l Hk); auto).
                     exists m. split; [|auto]. pose proof (Ap_le (g * k) l ltac:(lia) ltac:(lia)). pose proof (Ap_le (S l) hi ltac:(lia) ltac:(lia)). lia.
              ** rewrite aget_app1 by lia. apply C3. lia.
        -- rewrite Nat.add_1_r. apply (rep_snoc cols Bp Bi); auto; try lia.
           intros t Ht. rewrite I5 by auto. symmetry. now apply (proj2 R).
        -- now rewrite upd_length.
        -- auto.
        -- rewrite concat_app, app_length. simpl. rewrite app_nil_r. lia.
        -- replace (S g * k) with (g * k + k) by lia. fold hi. rewrite concat_app, app_length. simpl. rewrite app_nil_r. lia.
        -- apply list_ext; [now rewrite repeat_length|]. intros x Hx. rewrite E2 by lia. rewrite aget_repeat by lia. now destruct (mem x vals).
  - intros [[[Bp Bi] cz] ex] (cols & C & R & L1 & L2 & -> & L3 & _). apply wp_ret. apply HQ; auto.
    pose proof (Ap_le (Nat.min (new_size n k * k) n) n ltac:(lia) ltac:(lia)). lia.
Qed.
End Coarsen.

(** * The graph of a matrix stored by one triangle *)

Section Sym.
Variables (n : nat) (Ap Ai : list nat).
Hypothesis W : wf_csc n Ap Ai.
Local Notation c j := (col_of n Ap j).

(** the neighbours of node [x] that the entries [0..e) give *)
Definition adj1 (j x : nat) : list nat :=
  if Ai.[j] =? c j then [] else (if c j =? x then [Ai.[j]] else []) ++ (if Ai.[j] =? x then [c j] else []).
Definition adjl (e x : nat) : list nat := flat_map (fun j => adj1 j x) (seq 0 e).
Definition dg (e x : nat) : nat := cnt 0 e (fun j => (Ai.[j] =? c j) && (c j =? x)).
Definition sz (x : nat) : nat := length (adjl Ap.[n] x) + dg Ap.[n] x.

Lemma adjl_S e x : adjl (S e) x = adjl e x ++ adj1 e x.
Proof. unfold adjl. rewrite seq_S, flat_map_app. simpl. now rewrite app_nil_r. Qed.
Lemma dg_S e x : dg (S e) x = dg e x + b2n ((Ai.[e] =? c e) && (c e =? x)).
Proof. unfold dg. now rewrite cnt_S by lia. Qed.
Lemma adjl_le e e' x : e <= e' -> length (adjl e x) <= length (adjl e' x).
Proof. induction 1; [auto|]. rewrite adjl_S, app_length. lia. Qed.

Lemma sum_r_0 a b : sum_r a b (fun _ => 0) = 0.
Proof. rewrite sum_r_const. lia. Qed.
Lemma sum_r_mono a b d f : a <= b -> b <= d -> sum_r a b f <= sum_r a d f.
Proof. intros. rewrite (sum_r_split a b d) by auto. lia. Qed.
Lemma one_sum m (y : nat) : y < m -> sum_r 0 m (fun x => b2n (y =? x)) = 1.
Proof.
  intros H. induction m as [|m IH]; [lia|]. rewrite sum_r_S by lia. destruct (Nat.eq_dec y m) as [->|].
  - rewrite Nat.eqb_refl. rewrite (sum_r_ext 0 m _ (fun _ => 0)); [rewrite sum_r_0; reflexivity|]. intros x Hx. replace (m =? x) with false by lia. auto.
  - rewrite IH by lia. replace (y =? m) with false by lia. simpl. lia.
Qed.

Lemma sum_pairs e : e <= Ap.[n] -> sum_r 0 n (fun x => length (adjl e x)) + 2 * sum_r 0 n (fun x => dg e x) = 2 * e.
Proof.
  destruct W as (W1 & W2 & W3 & W4 & W5). induction e as [|e IH]; intros He.
  - rewrite (sum_r_ext 0 n _ (fun _ => 0)) by auto. rewrite (sum_r_ext 0 n (fun x => dg 0 x) (fun _ => 0)) by auto. rewrite sum_r_0. lia.
  - rewrite (sum_r_ext 0 n (fun x => length (adjl (S e) x)) (fun x => length (adjl e x) + length (adj1 e x))) by (intros; now rewrite adjl_S, app_length).
    rewrite (sum_r_ext 0 n (fun x => dg (S e) x) (fun x => dg e x + b2n ((Ai.[e] =? c e) && (c e =? x)))) by (intros; now rewrite dg_S).
    rewrite !sum_r_add. specialize (IH ltac:(lia)). destruct (col_of_in n Ap e W2 W3 ltac:(lia)) as [Hc _]. specialize (W5 e ltac:(lia)).
    unfold adj1. destruct (Ai.[e] =? c e) eqn:E.
    + rewrite (sum_r_ext 0 n (fun x => length []) (fun _ => 0)) by auto. rewrite sum_r_0.
      rewrite (sum_r_ext 0 n (fun x => b2n (true && (c e =? x))) (fun x => b2n (c e =? x))) by auto. rewrite one_sum by auto. change (fun x => dg e x) with (dg e) in IH. lia.
    + rewrite (sum_r_ext 0 n (fun x => b2n (false && _)) (fun _ => 0)) by auto. rewrite sum_r_0.
      rewrite (sum_r_ext 0 n (fun x => length (_ ++ _)) (fun x => b2n (c e =? x) + b2n (Ai.[e] =? x))).
      * rewrite sum_r_add, !one_sum by auto. change (fun x => dg e x) with (dg e) in IH. lia.
      * intros x Hx. destruct (c e =? x), (Ai.[e] =? x); reflexivity.
Qed.

Hypothesis HD : one_diag n Ap Ai.
Lemma dg_one x : x < n -> dg Ap.[n] x = 1.
Proof.
  intros Hx. destruct W as (W1 & W2 & W3 & W4 & W5). destruct (HD x Hx) as (k & (Hk & Ek) & Hu). unfold dg.
  assert (Hkn : k < Ap.[n]). { assert (Ap.[S x] <= Ap.[n]) by (apply (mono_le (aget Ap) n); auto; lia). lia. }
  rewrite (cnt_ext 0 Ap.[n] _ (fun j => k =? j)).
  - unfold cnt. apply (one_sum Ap.[n] k Hkn).
  - intros j Hj. destruct (col_of_in n Ap j W2 W3 ltac:(lia)) as [Hc Hin]. destruct (Nat.eqb_spec k j) as [->|Hne].
    + assert (c j = x) by (apply in_col_col_of; auto; split; auto). rewrite H, Ek, !Nat.eqb_refl. auto.
    + destruct (Nat.eqb_spec Ai.[j] (c j)) as [E1|]; [|auto]. destruct (Nat.eqb_spec (c j) x) as [E2|]; [|auto].
      exfalso. apply Hne. symmetry. apply Hu; [now rewrite <- E2|congruence].
Qed.
Lemma sz_sum : sum_r 0 n sz + n = 2 * Ap.[n].
Proof.
  pose proof (sum_pairs Ap.[n] (le_n _)) as H. unfold sz. rewrite sum_r_add.
  rewrite (sum_r_ext 0 n (fun x => dg Ap.[n] x) (fun _ => 1)) in * by (intros; apply dg_one; lia).
  rewrite sum_r_const in *. lia.
Qed.

(** the lists [L x] are stored; the other cells of every node are zero *)
Definition fin (p : list nat) (cap : nat) (L : nat -> list nat) (s : list nat * list nat) : Prop :=
  let '(ind, fi) := s in
  length ind = n /\ length fi = cap /\ (forall x, x < n -> ind.[x] = length (L x)) /\ (forall x, x < n -> length (L x) <= sz x) /\
  (forall x t, x < n -> t < sz x -> fi.[p.[x] + t] = if t <? length (L x) then (L x).[t] else 0).

Lemma graph_push_wp p cap L s x y (Q : list nat * list nat -> Prop) :
  length p = n + 1 -> (forall x, x <= n -> p.[x] = sum_r 0 x sz) -> p.[n] <= cap ->
  fin p cap L s -> x < n -> length (L x) < sz x ->
  (forall s', fin p cap (fun z => if z =? x then L x ++ [y] else L z) s' -> Q s') -> wp (graph_push p x y s) Q.
Proof.
  intros Hp HP Hcap. destruct s as [ind fi]. intros (I1 & I2 & I3 & I4 & I5) Hx HL HQ. unfold graph_push.
  assert (PS : forall z, z < n -> p.[S z] = p.[z] + sz z) by (intros z Hz; rewrite !HP by lia; now rewrite sum_r_S by lia).
  assert (PM : forall a b, a <= b -> b <= n -> p.[a] <= p.[b]) by (intros a b A B; rewrite !HP by lia; apply sum_r_mono; lia).
  pose proof (PS x Hx). pose proof (PM (S x) n ltac:(lia) ltac:(lia)).
  wp1. apply wp_rd; [lia|]. wp1. apply wp_rd; [lia|]. rewrite I3 by auto. wp1. apply wp_wr; [lia|]. wp1. apply wp_wr; [lia|]. apply wp_ret.
  apply HQ. cbn [fin]. rewrite !upd_length. split; [auto|]. split; [auto|]. split; [|split].
  - intros z Hz. rewrite aget_upd by lia. destruct (Nat.eqb_spec z x) as [->|]; [rewrite app_length; simpl; lia|auto].
  - intros z Hz. destruct (Nat.eqb_spec z x) as [->|]; [rewrite app_length; simpl; lia|auto].
  - intros z t Hz Ht. pose proof (PS z Hz).
    assert (Hlt : p.[z] + t < cap) by (pose proof (PM (S z) n ltac:(lia) ltac:(lia)); lia).
    rewrite aget_upd by lia. destruct (Nat.eqb_spec z x) as [->|Hne].
    + rewrite app_length. cbn [length]. destruct (Nat.eqb_spec (p.[x] + t) (p.[x] + length (L x))) as [E|E].
      * replace t with (length (L x)) by lia. replace (length (L x) <? length (L x) + 1) with true by lia. now rewrite aget_app_last.
      * rewrite I5 by auto. destruct (Nat.ltb_spec t (length (L x))).
        -- replace (t <? length (L x) + 1) with true by lia. now rewrite aget_app1 by lia.
        -- replace (t <? length (L x) + 1) with false by lia. auto.
    + destruct (Nat.eqb_spec (p.[z] + t) (p.[x] + length (L x))) as [E|E].
      * exfalso. destruct (Nat.lt_gt_cases z x) as [HH _]. destruct (HH Hne) as [G|G].
        -- pose proof (PM (S z) x ltac:(lia) ltac:(lia)). lia.
        -- pose proof (PM (S x) z ltac:(lia) ltac:(lia)). lia.
      * auto.
Qed.

Lemma fin_ext p cap L L' s : (forall x, x < n -> L x = L' x) -> fin p cap L s -> fin p cap L' s.
Proof.
  intros H. destruct s as [ind fi]. intros (I1 & I2 & I3 & I4 & I5). split; [auto|]. split; [auto|]. split; [|split].
  - intros x Hx. rewrite <- H by auto. auto.
  - intros x Hx. rewrite <- H by auto. auto.
  - intros x t Hx Ht. rewrite <- H by auto. auto.
Qed.

Theorem symmetric_graph_wp (Q : list nat * list nat -> Prop) :
  (forall p fi, length p = n + 1 -> p.[0] = 0 -> length fi = p.[n] -> p.[n] = 2 * Ap.[n] - n ->
     (forall x, x < n -> p.[S x] = p.[x] + length (adjl Ap.[n] x) + 1) ->
     (forall x t, x < n -> t <= length (adjl Ap.[n] x) -> fi.[p.[x] + t] = (adjl Ap.[n] x ++ [0]).[t]) -> Q (p, fi)) ->
  wp (symmetric_graph n Ap.[n] Ap Ai) Q.
Proof.
  intros HQ. pose proof W as (W1 & W2 & W3 & W4 & W5). pose proof sz_sum as HS. unfold symmetric_graph. replace (2 * Ap.[n] <? n) with false by lia.
  apply wp_bind. apply (wp_cols (fun j ind => length ind = n /\ forall x, x < n -> ind.[x] = length (adjl j x) + dg j x)); auto.
  { split; [now rewrite repeat_length|]. intros x Hx. now rewrite aget_repeat. }
  { intros i j ind Hi Hj [I1 I2].
    assert (Hjn : j < Ap.[n]) by (assert (Ap.[S i] <= Ap.[n]) by (apply (mono_le (aget Ap) n); auto; lia); lia).
    assert (Hc : c j = i) by (apply in_col_col_of; auto; split; auto). specialize (W5 j Hjn).
    assert (E : forall x, length (adjl (S j) x) + dg (S j) x = length (adjl j x) + dg j x + (if Ai.[j] =? i then b2n (i =? x) else b2n (i =? x) + b2n (Ai.[j] =? x))).
    { intros x. rewrite adjl_S, dg_S, app_length. unfold adj1. rewrite Hc. destruct (Ai.[j] =? i); cbn [andb]; [simpl; lia|].
      destruct (i =? x), (Ai.[j] =? x); simpl; lia. }
    wp1. apply wp_rd; [lia|]. wp1. apply wp_rd; [lia|]. wp1. apply wp_wr; [lia|].
    destruct (Nat.eqb_spec Ai.[j] i) as [Ei|Ei].
    - apply wp_ret. rewrite upd_length. split; [auto|]. intros x Hx. rewrite E. rewrite aget_upd by lia. rewrite (Nat.eqb_sym i x). rewrite !I2 by auto.
      destruct (Nat.eqb_spec x i) as [->|]; simpl; lia.
    - wp1. apply wp_rd; [rewrite upd_length; lia|]. apply wp_wr; [rewrite upd_length; lia|]. rewrite !upd_length. split; [auto|].
      intros x Hx. rewrite E. rewrite aget_upd by (rewrite upd_length; lia). rewrite aget_upd_ne by auto. rewrite aget_upd by lia.
      rewrite (Nat.eqb_sym i x), (Nat.eqb_sym Ai.[j] x). rewrite !I2 by auto.
      destruct (Nat.eqb_spec x Ai.[j]) as [E1|E1], (Nat.eqb_spec x i) as [E2|E2]; try (rewrite <- E1); try (rewrite <- E2); cbn [b2n]; lia. }
  intros ind [C1 C2]. wp1. apply wp_wr; [rewrite repeat_length; lia|]. apply wp_bind.
  apply wp_for with (I := fun i p => length p = n + 1 /\ forall x, x <= i -> p.[x] = sum_r 0 x sz).
  { lia. }
  { rewrite upd_length, repeat_length. split; [auto|]. intros x Hx. replace x with 0 by lia. rewrite aget_upd_eq by (rewrite repeat_length; lia). auto. }
  { intros i p Hi [I1 I2]. wp1. apply wp_rd; [lia|]. wp1. apply wp_rd; [lia|]. apply wp_wr; [lia|]. rewrite upd_length. split; [auto|].
    intros x Hx. rewrite aget_upd by lia. destruct (Nat.eqb_spec x (S i)) as [->|]; [|apply I2; lia]. rewrite sum_r_S by lia. rewrite I2, C2 by lia. reflexivity. }
  intros p [P1 P2]. apply wp_bind.
  apply wp_for with (I := fun i d => length d = n /\ forall x, x < i -> d.[x] = 0).
  { lia. } { split; [auto|]. intros; lia. }
  { intros i d Hi [I1 I2]. apply wp_wr; [lia|]. rewrite upd_length. split; auto. intros x Hx. rewrite aget_upd by lia. destruct (Nat.eqb_spec x i); [auto|apply I2; lia]. }
  intros d [D1 D2]. assert (Hpn : p.[n] = 2 * Ap.[n] - n) by (rewrite P2 by lia; lia). apply wp_bind.
  apply (wp_cols (fun j s => fin p (2 * Ap.[n] - n) (adjl j) s)); auto.
  { cbn [fin]. rewrite repeat_length. split; [auto|]. split; [auto|]. split; [intros; rewrite D2 by auto; reflexivity|]. split; [simpl; intros; lia|].
    intros x t Hx Ht. simpl. destruct (le_lt_dec (2 * Ap.[n] - n) (p.[x] + t)) as [L|L]; [apply nth_overflow; rewrite repeat_length; auto|now apply aget_repeat]. }
  { intros i j s Hi Hj HI.
    assert (Hjn : j < Ap.[n]) by (assert (Ap.[S i] <= Ap.[n]) by (apply (mono_le (aget Ap) n); auto; lia); lia).
    assert (Hc : c j = i) by (apply in_col_col_of; auto; split; auto). specialize (W5 j Hjn).
    assert (Hle : forall x, length (adjl j x ++ adj1 j x) <= sz x) by (intros x; rewrite <- adjl_S; unfold sz; pose proof (adjl_le (S j) Ap.[n] x ltac:(lia)); lia).
    wp1. apply wp_rd; [lia|]. destruct (Nat.eqb_spec Ai.[j] i) as [Ei|Ei].
    - apply wp_ret. eapply fin_ext; [|exact HI]. intros x Hx. rewrite adjl_S. unfold adj1. rewrite Hc, Ei, Nat.eqb_refl. now rewrite app_nil_r.
    - assert (Ea : forall x, adj1 j x = if x =? i then [Ai.[j]] else if x =? Ai.[j] then [i] else []).
      { intros x. unfold adj1. rewrite Hc. replace (Ai.[j] =? i) with false by lia. rewrite (Nat.eqb_sym i x), (Nat.eqb_sym Ai.[j] x).
        destruct (Nat.eqb_spec x i) as [->|]; [|auto]. replace (i =? Ai.[j]) with false by lia. auto. }
      apply wp_bind. apply (graph_push_wp p (2 * Ap.[n] - n) (adjl j)); auto; [lia| |].
      { specialize (Hle i). rewrite Ea, Nat.eqb_refl, app_length in Hle. simpl in Hle. lia. }
      intros s' HI'. apply (graph_push_wp p (2 * Ap.[n] - n) (fun z => if z =? i then adjl j i ++ [Ai.[j]] else adjl j z)); auto; [lia| |].
      { cbv beta. replace (Ai.[j] =? i) with false by lia. specialize (Hle Ai.[j]). rewrite Ea in Hle. replace (Ai.[j] =? i) with false in Hle by lia.
        rewrite Nat.eqb_refl, app_length in Hle. simpl in Hle. lia. }
      intros s'' HI''. eapply fin_ext; [|exact HI'']. intros x Hx. cbv beta. rewrite adjl_S, Ea. replace (Ai.[j] =? i) with false by lia.
      destruct (Nat.eqb_spec x Ai.[j]) as [->|]; [now replace (Ai.[j] =? i) with false by lia|]. destruct (Nat.eqb_spec x i) as [->|]; [auto|now rewrite app_nil_r]. }
  intros [ind' fi] (I1 & I2 & I3 & I4 & I5). apply wp_ret. apply HQ; auto.
  - rewrite P2 by lia. auto.
  - lia.
  - intros x Hx. rewrite !P2 by lia. rewrite sum_r_S by lia. unfold sz. rewrite dg_one by auto. lia.
  - intros x t Hx Ht. assert (Es : sz x = length (adjl Ap.[n] x) + 1) by (unfold sz; now rewrite dg_one by auto). rewrite I5 by (auto; lia).
    destruct (Nat.ltb_spec t (length (adjl Ap.[n] x))).
    + now rewrite aget_app1 by lia.
    + replace t with (length (adjl Ap.[n] x)) by lia. now rewrite aget_app_last.
Qed.

Lemma adjl_In x y : x < n -> (In y (adjl Ap.[n] x) <-> x <> y /\ (entry Ap Ai x y \/ (y < n /\ entry Ap Ai y x))).
Proof.
  intros Hx. destruct W as (W1 & W2 & W3 & W4 & W5). unfold adjl. rewrite in_flat_map. split.
  - intros (j & Hj & H). apply in_seq in Hj. destruct (col_of_in n Ap j W2 W3 ltac:(lia)) as [Hc Hin]. unfold adj1 in H.
    destruct (Nat.eqb_spec Ai.[j] (c j)) as [|E]; [easy|]. apply in_app_or in H. destruct H as [H|H].
    + destruct (Nat.eqb_spec (c j) x) as [<-|]; [|easy]. destruct H as [<-|[]]. split; [auto|]. left. exists j. auto.
    + destruct (Nat.eqb_spec Ai.[j] x) as [Ex|]; [|easy]. destruct H as [<-|[]]. split; [congruence|]. right. split; [auto|]. exists j. auto.
  - assert (G : forall u v, u < n -> u <> v -> entry Ap Ai u v -> exists j, j < Ap.[n] /\ c j = u /\ Ai.[j] = v).
    { intros u v Hu Hne (j & Hj & Ej). exists j. assert (Ap.[S u] <= Ap.[n]) by (apply (mono_le (aget Ap) n); auto; lia). split; [lia|]. split; [|auto].
      apply in_col_col_of; auto. split; auto. }
    intros [Hne [He|[Hy He]]].
    + destruct (G x y Hx Hne He) as (j & A & B & C). exists j. split; [apply in_seq; lia|]. unfold adj1. rewrite B, C.
      replace (y =? x) with false by lia. rewrite Nat.eqb_refl. now left.
    + destruct (G y x Hy ltac:(auto) He) as (j & A & B & C). exists j. split; [apply in_seq; lia|]. unfold adj1. rewrite B, C.
      replace (x =? y) with false by lia. rewrite Nat.eqb_refl. apply in_or_app. right. now left.
Qed.
End Sym.
