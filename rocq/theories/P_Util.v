(** Properties of the size arithmetic and of the partitioning helpers (C45, C46). *)
From Coq Require Import ZifyBool ZifyNat.
From Verif Require Import Base Lib Lib2 Lib3 Spec Check M_Util.

(** * C45 *)

Lemma wrap_le a b : (0 <= a < W -> 0 <= b < W -> (a <=? (b + a) mod W) = (b + a <? W))%Z.
Proof.
  intros Ha Hb. destruct (Z.ltb_spec (b + a) W).
  - rewrite Z.mod_small by lia. apply Z.leb_le. lia.
  - replace ((b + a) mod W)%Z with (b + a - W)%Z.
    + apply Z.leb_gt. lia.
    + symmetry. rewrite <- (Z.mod_small (b + a - W) W) by lia. rewrite <- (Z.mod_add (b + a - W) 1 W) by (unfold W; lia). f_equal. lia.
Qed.

Lemma mult_loop_false f a k p : mult_loop (S f) a k p false = Ok (0%Z, false).
Proof. reflexivity. Qed.

Lemma mult_loop_spec f : forall a k p, (0 <= a < W)%Z -> (0 <= p < W)%Z -> (0 <= k < 2 ^ Z.of_nat f)%Z ->
  exists r ok, mult_loop (S f) a k p true = Ok (r, ok) /\ (ok = true <-> (p + a * k < W)%Z) /\ (ok = true -> r = (p + a * k)%Z).
Proof.
  induction f as [|f IH]; intros a k p Ha Hp Hk.
  - assert (k = 0%Z) by (simpl in Hk; lia). subst k. exists p, true. simpl. rewrite Z.mul_0_r, Z.add_0_r.
    split; [reflexivity|]. split; [split; auto; lia|auto].
  - assert (E : (k = 2 * (k / 2) + Z.b2z (Z.odd k))%Z) by (rewrite <- Z.div2_div; apply Z.div2_odd).
    assert (B : (0 <= k / 2 < 2 ^ Z.of_nat f)%Z).
    { split; [apply Z.div_pos; lia|]. apply Z.div_lt_upper_bound; [lia|]. replace (Z.of_nat (S f)) with (Z.succ (Z.of_nat f)) in Hk by lia. rewrite Z.pow_succ_r in Hk; lia. }
    remember (S f) as f1. simpl mult_loop. subst f1. set (h := (k / 2)%Z) in *.
    assert (G : forall p', (0 <= p' < W)%Z -> (p + a * k = p' + 2 * a * h)%Z ->
      exists r ok, (if (h =? 0)%Z then Ok (p', true) else mult_loop (S f) ((a + a) mod W) h p' (true && (a <=? (a + a) mod W)%Z)) = Ok (r, ok)
        /\ (ok = true <-> (p + a * k < W)%Z) /\ (ok = true -> r = (p + a * k)%Z)).
    { intros p' Hp' E'. destruct (Z.eqb_spec h 0) as [H0|H0].
      - exists p', true. rewrite H0 in E'. split; [reflexivity|]. split; [split; auto; lia|intros; lia].
      - rewrite wrap_le by lia. destruct (Z.ltb_spec (a + a) W) as [L|L]; cbn [andb].
        + rewrite Z.mod_small by lia. destruct (IH (a + a)%Z h p' ltac:(lia) Hp' B) as (r & ok & E1 & E2 & E3).
          exists r, ok. split; [exact E1|]. replace (p' + (a + a) * h)%Z with (p + a * k)%Z in * by lia. auto.
        + rewrite mult_loop_false. exists 0%Z, false. split; [reflexivity|]. split; [|discriminate]. split; [discriminate|]. intros; exfalso.
          assert ((2 * a <= 2 * a * h)%Z) by nia. lia. }
    destruct (Z.odd k); cbn [Z.b2z] in E.
    + rewrite (wrap_le a p) by lia. cbn [andb]. destruct (Z.ltb_spec (p + a) W) as [L|L].
      * rewrite Z.mod_small by lia. apply G; [lia|]. nia.
      * assert (W <= p + a * k)%Z by nia.
        destruct (Z.eqb_spec h 0); [|cbn [andb]; rewrite mult_loop_false]; eexists; exists false; (split; [reflexivity|]; split; [|discriminate]; split; [discriminate|intros; exfalso; lia]).
    + apply G; [lia|]. rewrite E. nia.
Qed.

(** On every pair of 64-bit operands with [ok] set, mult_size_t ends, keeps [ok] set exactly
    when the product fits into 64 bits and then returns it; with [ok] cleared it returns 0. *)
Theorem C45_mult_size_t : forall a k, (0 <= a < 2 ^ 64)%Z -> (0 <= k < 2 ^ 64)%Z ->
  (exists r ok, mult_size_t a k true = Ok (r, ok) /\ (ok = true <-> (a * k < 2 ^ 64)%Z) /\ (ok = true -> r = (a * k)%Z)) /\
  mult_size_t a k false = Ok (0%Z, false).
Proof.
  intros a k Ha Hk. split; [|reflexivity]. unfold mult_size_t.
  destruct (mult_loop_spec 64 a k 0 Ha ltac:(unfold W; lia) Hk) as (r & ok & E1 & E2 & E3). exists r, ok. auto.
Qed.
Print Assumptions C45_mult_size_t.

Example C45_mult_case : mult_size_t 4294967297 4294967295 true = Ok (18446744073709551615, true)%Z /\
  mult_size_t 4294967297 4294967296 true = Ok (0, false)%Z.
Proof. split; vm_compute; reflexivity. Qed.

(** The comment above mult_size_t promises the result 0 on overflow; the wrapped product is
    returned when the overflow happens in the last addition. *)
Theorem C45_mult_zero_on_overflow_refuted :
  ~ (forall a k r, (0 <= a < 2 ^ 64)%Z -> (0 <= k < 2 ^ 64)%Z -> mult_size_t a k true = Ok (r, false) -> r = 0%Z).
Proof. intros H. specialize (H 9223372036854775807 3 9223372036854775805)%Z. assert (9223372036854775805 = 0)%Z; [|discriminate]. apply H; try lia. vm_compute. reflexivity. Qed.
Print Assumptions C45_mult_zero_on_overflow_refuted.

Theorem C45_add_size_t : forall a b ok, (0 <= a < 2 ^ 64)%Z -> (0 <= b < 2 ^ 64)%Z ->
  (ok = true -> (a + b < 2 ^ 64)%Z -> add_size_t a b ok = ((a + b)%Z, true)) /\
  (ok = false \/ (2 ^ 64 <= a + b)%Z -> add_size_t a b ok = (0%Z, false)).
Proof.
  intros a b ok Ha Hb. unfold add_size_t. replace (a + b)%Z with (b + a)%Z by lia. rewrite wrap_le by (unfold W; lia). change (2 ^ 64)%Z with W in *.
  destruct (Z.ltb_spec (b + a) W) as [L|L]; split.
  - intros -> _. cbn [andb]. now rewrite Z.mod_small by lia.
  - intros [->|H]; [reflexivity|lia].
  - intros; lia.
  - intros _. now rewrite andb_false_r.
Qed.
Print Assumptions C45_add_size_t.

Example C45_add_case : add_size_t 18446744073709551615 1 true = (0, false)%Z /\ add_size_t 18446744073709551614 1 true = (18446744073709551615, true)%Z.
Proof. split; vm_compute; reflexivity. Qed.

(** * C46: partitioning by weight *)

Section ByWeight.
Context {T : Type} `{DT : Dflt T}.
Variables (zero : T) (add : T -> T -> T) (ltb : T -> T -> bool).

(** the weight of a list of nodes, accumulated in order *)
Definition total (weight : list T) (l : list nat) : T := fold_left add (map (aget weight) l) zero.

(** the part [a, b) of the sequence [set] is a greedy part with target [e]: it is extended
    while its weight is below the target and nodes are left *)
Definition greedy (n : nat) (set : list nat) (weight : list T) (e : T) (a b : nat) : Prop :=
  a <= b /\ b <= n /\
  (forall k, a <= k < b -> ltb (total weight (slice set a k)) e = true) /\
  (b < n -> ltb (total weight (slice set a b)) e = false).

Lemma total_snoc weight l v : total weight (l ++ [v]) = add (total weight l) weight.[v].
Proof. unfold total. rewrite map_app, fold_left_app. reflexivity. Qed.

Lemma slice_snoc (l : list nat) a b : a <= b -> b < length l -> slice l a (S b) = slice l a b ++ [l.[b]].
Proof. intros H1 H2. rewrite (slice_app l a b (S b)) by lia. f_equal. rewrite (slice_cons l b (S b)) by lia. rewrite slice_nil by lia. reflexivity. Qed.

Theorem partition_by_weight_wp n set weight n_parts ew :
  n <= length set -> (forall j, j < n -> set.[j] < length weight) -> n_parts <= length ew ->
  exists idx, partition_by_weight zero add ltb n set weight n_parts ew = Ok idx /\
    length idx = S n_parts /\ idx.[0] = 0 /\ forall i, i < n_parts -> greedy n set weight ew.[i] idx.[i] idx.[S i].
Proof.
  intros H1 H2 H3.
  set (P := fun idx : list nat => length idx = S n_parts /\ idx.[0] = 0 /\ forall i, i < n_parts -> greedy n set weight ew.[i] idx.[i] idx.[S i]).
  assert (G : wp (partition_by_weight zero add ltb n set weight n_parts ew) P).
  { unfold partition_by_weight. wp1.
    apply (wp_for (fun i s => length (fst s) = S n_parts /\ (fst s).[0] = 0 /\ snd s = (fst s).[i] /\ snd s <= n /\ forall l, l < i -> greedy n set weight ew.[l] (fst s).[l] (fst s).[S l])).
    - lia.
    - cbn [fst snd]. splits; auto; try lia. now rewrite repeat_length.
    - intros i [idx j0] Hi (I1 & I2 & I3 & I4 & I5). cbn [fst snd] in *. wp1.
      apply (wp_while (fun s => j0 <= snd s <= n /\ fst s = total weight (slice set j0 (snd s)) /\ forall k, j0 <= k < snd s -> ltb (total weight (slice set j0 k)) ew.[i] = true) (fun s => n - snd s)).
      + cbn [fst snd]. splits; auto; try lia. rewrite slice_nil by lia. reflexivity.
      + cbn [snd]. lia.
      + intros [c j] (J1 & J2 & J3). cbn [fst snd] in *. wp1. wp1; [lia|]. wp1.
        destruct (ltb c ew.[i]) eqn:Ec; cbn [andb]; [destruct (Nat.ltb_spec j n) as [Hj|Hj]|].
        * wp1. wp1; [lia|]. wp1. wp1; [auto|]. wp1. cbn [fst snd]. splits; try lia.
          -- rewrite slice_snoc by lia. rewrite total_snoc. congruence.
          -- intros k Hk. destruct (Nat.eq_dec k j) as [->|]; [congruence|apply J3; lia].
        * wp1. wp1; [lia|]. wp1. cbn [fst snd]. rewrite upd_length. assert (j = n) by lia. subst j. splits; auto; try lia.
          -- rewrite aget_upd_ne by lia. auto.
          -- now rewrite aget_upd_eq by lia.
          -- intros l Hl. destruct (Nat.eq_dec l i) as [->|].
             ++ rewrite aget_upd_eq by lia. rewrite aget_upd_ne by lia. unfold greedy. rewrite <- I3. splits; auto; try lia.
             ++ rewrite !aget_upd_ne by lia. apply I5. lia.
        * wp1. wp1; [lia|]. wp1. cbn [fst snd]. rewrite upd_length. splits; auto; try lia.
          -- rewrite aget_upd_ne by lia. auto.
          -- now rewrite aget_upd_eq by lia.
          -- intros l Hl. destruct (Nat.eq_dec l i) as [->|].
             ++ rewrite aget_upd_eq by lia. rewrite aget_upd_ne by lia. unfold greedy. rewrite <- I3. splits; auto; try lia. intros _. congruence.
             ++ rewrite !aget_upd_ne by lia. apply I5. lia.
    - intros [idx j] (I1 & I2 & I3 & I4 & I5). cbn [fst snd] in *. wp1. unfold P. auto. }
  destruct (partition_by_weight zero add ltb n set weight n_parts ew) as [c|]; [|contradiction]. exists c. auto.
Qed.
End ByWeight.

(** For every weight type, addition and comparison (so for every rounding of the doubles), every
    node sequence and every target vector: boundaries start at 0, each part is the greedy part
    starting where the previous one ended. *)
Theorem C46_weight_boundaries : forall (T : Type) (DT : Dflt T) (zero : T) (add : T -> T -> T) (ltb : T -> T -> bool)
    n set weight n_parts ew,
  n <= length set -> (forall j, j < n -> set.[j] < length weight) -> n_parts <= length ew ->
  exists idx, partition_by_weight zero add ltb n set weight n_parts ew = Ok idx /\
    length idx = S n_parts /\ idx.[0] = 0 /\ idx.[n_parts] <= n /\
    forall i, i < n_parts -> greedy zero add ltb n set weight ew.[i] idx.[i] idx.[S i].
Proof.
  intros. destruct (partition_by_weight_wp zero add ltb n set weight n_parts ew) as (idx & E1 & E2 & E3 & E4); auto.
  exists idx. splits; auto. destruct n_parts as [|m]; [lia|]. destruct (E4 m) as (_ & G & _); [lia|]. exact G.
Qed.
Print Assumptions C46_weight_boundaries.

Example C46_weight_case : partition_by_weight 0 Nat.add Nat.ltb 5 [4; 2; 0; 1; 3] [1; 1; 1; 1; 1] 2 (even_share 5 [1; 1; 1; 1; 1] 2) = Ok [0; 3; 5].
Proof. vm_compute. reflexivity. Qed.

Lemma total_nat weight l : total 0 Nat.add weight l = list_sum (map (aget weight) l).
Proof.
  unfold total. generalize (map (aget weight) l). intros m.
  assert (G : forall m a, fold_left Nat.add m a = a + list_sum m).
  { clear. induction m as [|x m IH]; intros a; simpl; [lia|]. rewrite IH. lia. }
  rewrite G. reflexivity.
Qed.

Lemma list_sum_perm (l l' : list nat) : Permutation l l' -> list_sum l = list_sum l'.
Proof. induction 1; simpl; lia. Qed.

(** Positive whole-number weights, targets that together reach the total weight: the parts
    cover the whole sequence. *)
Theorem C46_weight_covers : forall n set weight n_parts ew,
  is_perm n set -> n <= length weight -> (forall v, v < n -> 0 < weight.[v]) -> n_parts <= length ew -> 1 <= n_parts ->
  sum_r 0 n (aget weight) <= sum_r 0 n_parts (aget ew) ->
  exists idx, partition_by_weight 0 Nat.add Nat.ltb n set weight n_parts ew = Ok idx /\ idx.[n_parts] = n.
Proof.
  intros n set weight n_parts ew HP HW Hpos HE Hn HS. pose proof HP as (P1 & P2 & P3).
  destruct (partition_by_weight_wp 0 Nat.add Nat.ltb n set weight n_parts ew) as (idx & E1 & E2 & E3 & E4); auto.
  - lia.
  - intros j Hj. pose proof (is_perm_lt n set j HP Hj). lia.
  - exists idx. split; auto. destruct (Nat.eq_dec idx.[n_parts] n) as [|Hne]; auto. exfalso.
    assert (Hle : forall i, i <= n_parts -> idx.[i] <= n).
    { intros [|i] Hi; [lia|]. destruct (E4 i) as (_ & G & _); [lia|]. exact G. }
    pose proof (Hle n_parts (le_n _)).
    assert (M : forall i, i <= n_parts -> idx.[i] <= idx.[n_parts]).
    { intros i Hi. apply (mono_le (aget idx) n_parts); try lia. intros k Hk. destruct (E4 k Hk) as (G & _). exact G. }
    assert (G : forall i, i <= n_parts -> sum_r 0 i (aget ew) <= list_sum (map (aget weight) (slice set 0 idx.[i]))).
    { induction i as [|i IH]; intros Hi; [rewrite sum_r_nil by lia; lia|]. rewrite sum_r_S by lia.
      destruct (E4 i) as (G1 & G2 & _ & G4); [lia|]. pose proof (M (S i) Hi). specialize (G4 ltac:(lia)). apply Nat.ltb_ge in G4. rewrite total_nat in G4.
      rewrite (slice_app set 0 idx.[i] idx.[S i]) by lia. rewrite map_app, list_sum_app. specialize (IH ltac:(lia)). lia. }
    specialize (G n_parts (le_n _)).
    assert (S1 : sum_r 0 n (aget weight) = list_sum (map (aget weight) set)).
    { unfold sum_r. rewrite Nat.sub_0_r. apply list_sum_perm. apply Permutation_map. symmetry. now apply is_perm_Permutation. }
    assert (S2 : list_sum (map (aget weight) set) = list_sum (map (aget weight) (slice set 0 idx.[n_parts])) + list_sum (map (aget weight) (slice set idx.[n_parts] n))).
    { rewrite <- list_sum_app, <- map_app, <- slice_app by lia. rewrite <- P1, slice_full. reflexivity. }
    rewrite (slice_cons set idx.[n_parts] n) in S2 by lia. cbn [map] in S2. change (list_sum (?a :: ?l)) with (a + list_sum l) in S2.
    pose proof (Hpos _ (is_perm_lt n set idx.[n_parts] HP ltac:(lia))). cbn [list_sum fold_right] in S2. unfold list_sum in *. lia.
Qed.
Print Assumptions C46_weight_covers.

Theorem C46_even_share_covers : forall n set weight n_parts,
  is_perm n set -> n <= length weight -> (forall v, v < n -> 0 < weight.[v]) -> 1 <= n_parts ->
  exists idx, partition_by_weight 0 Nat.add Nat.ltb n set weight n_parts (even_share n weight n_parts) = Ok idx /\ idx.[n_parts] = n.
Proof.
  intros n set weight n_parts HP HW Hpos Hn. apply C46_weight_covers; auto; unfold even_share; [now rewrite repeat_length|].
  set (s := sum_r 0 n (aget weight)). set (q := (s + n_parts - 1) / n_parts).
  rewrite (sum_r_ext 0 n_parts _ (fun _ => q)) by (intros i Hi; apply aget_repeat; lia). rewrite sum_r_const.
  pose proof (Nat.div_mod (s + n_parts - 1) n_parts ltac:(lia)). pose proof (Nat.mod_upper_bound (s + n_parts - 1) n_parts ltac:(lia)). fold q in H. nia.
Qed.
Print Assumptions C46_even_share_covers.

Example C46_covers_case : partition_by_weight 0 Nat.add Nat.ltb 4 [3; 1; 0; 2] [2; 7; 1; 3] 3 (even_share 4 [2; 7; 1; 3] 3) = Ok [0; 2; 4; 4].
Proof. vm_compute. reflexivity. Qed.

(** A weightless node at the end of the sequence ends up in no part, and so do nodes left over
    when the caller's targets are too small. *)
Theorem C46_weight_covers_refuted :
  ~ (forall n set weight n_parts idx, is_perm n set -> n <= length weight -> 1 <= n_parts ->
       partition_by_weight 0 Nat.add Nat.ltb n set weight n_parts (even_share n weight n_parts) = Ok idx -> idx.[n_parts] = n) /\
  ~ (forall n set weight n_parts ew idx, is_perm n set -> n <= length weight -> 1 <= n_parts -> n_parts <= length ew -> (forall v, v < n -> 0 < weight.[v]) ->
       partition_by_weight 0 Nat.add Nat.ltb n set weight n_parts ew = Ok idx -> idx.[n_parts] = n).
Proof.
  split; intros H.
  - specialize (H 3 [0; 1; 2] [1; 1; 0] 2 [0; 1; 2]). assert (2 = 3); [|discriminate]. apply H; try (simpl; lia); [apply is_permb_ok; reflexivity|reflexivity].
  - specialize (H 3 [0; 1; 2] [1; 1; 1] 2 [1; 1] [0; 1; 2]). assert (2 = 3); [|discriminate]. apply H; try (simpl; lia); [apply is_permb_ok; reflexivity| |reflexivity].
    intros [|[|[|v]]] Hv; try lia; vm_compute; lia.
Qed.
Print Assumptions C46_weight_covers_refuted.
