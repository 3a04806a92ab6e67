(** C162: what the profiler measures and prints. *)
From Coq Require Import ZifyBool ZifyNat.
From Verif Require Import Base Lib Lib2 Lib3 M_Profiler.

#[local] Instance Dflt_bundle : Dflt bundle := mkBundle 0 [].

(** [F r] is what the counters of [n] events hold after run [r]: what PAPI delivered; if it delivered nothing, zeros
    after a start that worked and otherwise what they held before *)
Definition counter_values (n : nat) (papi : nat -> bool * option (list Z)) (F : nat -> list Z) : Prop :=
  forall r, match papi r with
            | (_, Some v) => F r = v
            | (true, None) => F r = repeat 0%Z n
            | (false, None) => F r = match r with 0 => repeat 0%Z n | S q => F q end
            end.

Fixpoint after (n : nat) (papi : nat -> bool * option (list Z)) (r : nat) : list Z :=
  match papi r with
  | (_, Some v) => v
  | (true, None) => repeat 0%Z n
  | (false, None) => match r with 0 => repeat 0%Z n | S q => after n papi q end
  end.
Lemma after_ok n papi : counter_values n papi (after n papi).
Proof. intros r. destruct r; cbn [after]; destruct (papi _) as [[] [v|]]; reflexivity. Qed.

Lemma after_length n papi : (forall r v, snd (papi r) = Some v -> length v = n) -> forall r, length (after n papi r) = n.
Proof.
  intros H. induction r as [|r IH]; cbn [after]; destruct (papi _) as [[] [v|]] eqn:E; rewrite ?repeat_length; auto;
    eapply H; rewrite E; reflexivity.
Qed.

Definition row (events : list Z) (vals : nat -> list Z) (runs j : nat) : bundle :=
  mkBundle events.[j] (map (fun r => (vals r).[j]) (seq 0 runs)).

Lemma finish_wp n ans ctr events vals r : let c := match ans with Some v => v | None => ctr end in
  length events = n -> length c = n -> vals r = c ->
  finish_profiling n ans ctr (map (row events vals r) (seq 0 n)) = Ok (c, map (row events vals (S r)) (seq 0 n)).
Proof.
  intros c HE HC HV. unfold finish_profiling. fold c.
  enough (G : wp (for_ 0 n (fun j bs => b <- @rd bundle bs j ;; x <- rd c j ;; wr bs j (mkBundle (event_code b) (counters b ++ [x]))) (map (row events vals r) (seq 0 n)))
    (fun bs => bs = map (row events vals (S r)) (seq 0 n))).
  { apply wp_ok in G. destruct G as (bs & E & ->). cbv zeta. rewrite E. reflexivity. }
  apply (wp_for (fun j bs => bs = map (row events vals (S r)) (seq 0 j) ++ map (row events vals r) (seq j (n - j)))); [lia| | |].
  - now rewrite Nat.sub_0_r.
  - intros j bs Hj ->. set (A := map (row events vals (S r)) (seq 0 j)).
    assert (LA : length A = j) by (unfold A; now rewrite map_length, seq_length).
    replace (n - j) with (S (n - S j)) by lia. change (seq j (S (n - S j))) with (j :: seq (S j) (n - S j)). rewrite map_cons.
    assert (Rj : forall x R, (A ++ x :: R).[j] = x). { intros x R. unfold aget. rewrite app_nth2, LA, Nat.sub_diag by lia. reflexivity. }
    assert (Uj : forall x y R, upd (A ++ x :: R) j y = A ++ y :: R).
    { clearbody A. clear -LA. intros x y R. revert j LA. induction A as [|a A IH]; intros j LA; cbn in LA; subst j; [reflexivity|]. cbn. f_equal. now apply IH. }
    wp1. wp1; [rewrite app_length; cbn [length]; lia|]. rewrite Rj. wp1. wp1; [lia|]. wp1; [rewrite app_length; cbn [length]; lia|].
    rewrite Uj. rewrite (seq_S j 0), map_app. cbn [map Nat.add]. fold A. rewrite <- app_assoc. cbn [app]. do 2 f_equal.
    unfold row. cbn [event_code counters]. rewrite (seq_S r 0), map_app. cbn [map Nat.add]. now rewrite HV.
  - intros bs ->. now rewrite Nat.sub_diag, app_nil_r.
Qed.

Lemma runs_ok num_test papi events inst : let n := length events in (forall r v, snd (papi r) = Some v -> length v = n) ->
  exists ctr, measured_runs num_test n papi (fst (new_wrapper events inst)) (snd (new_wrapper events inst)) =
    Ok (ctr, map (row events (after n papi) num_test) (seq 0 n)).
Proof.
  intros n HL. unfold measured_runs, new_wrapper. cbn [fst snd]. fold n.
  enough (G : wp (for_ 0 num_test (fun r '(ctr, bs) => let '(ok, ans) := papi r in finish_profiling n ans (begin_profiling ok ctr) bs)
      (repeat 0%Z n, map (fun e => mkBundle e []) events)) (fun '(_, bs) => bs = map (row events (after n papi) num_test) (seq 0 n))).
  { apply wp_ok in G. destruct G as ([c bs] & E & ->). eauto. }
  apply (wp_for (fun r '(c, bs) => c = match r with 0 => repeat 0%Z n | S q => after n papi q end /\ bs = map (row events (after n papi) r) (seq 0 n))); [lia| | |].
  - split; auto. apply nth_ext with (d := mkBundle 0 []) (d' := row events (after n papi) 0 0); rewrite ?map_length, ?seq_length; auto.
    intros j Hj. change (mkBundle 0 []) with ((fun e => mkBundle e []) 0%Z). rewrite map_nth. rewrite map_nth, seq_nth by auto. reflexivity.
  - intros r [c bs] Hr [-> ->]. destruct (papi r) as [ok ans] eqn:E.
    set (c := match r with 0 => repeat 0%Z n | S q => after n papi q end).
    assert (Lc : length c = n) by (unfold c; destruct r; [apply repeat_length|now apply after_length]).
    assert (Hv : after n papi r = match ans with Some v => v | None => begin_profiling ok c end).
    { unfold c, begin_profiling in *. destruct r; cbn [after]; rewrite E; destruct ok, ans; auto; rewrite ?repeat_length, ?Lc; reflexivity. }
    rewrite (finish_wp n ans (begin_profiling ok c) events (after n papi) r); auto.
    + cbn [wp]. split; auto.
    + rewrite <- Hv. now apply after_length.
  - intros [c bs] [_ ->]. reflexivity.
Qed.

Lemma iters len b : 0 < b -> num_iter len (Z.of_nat b) = Ok (Z.of_nat ((len + (b - 1)) / b)).
Proof.
  intros Hb. unfold num_iter. destruct (Z.eqb_spec (Z.of_nat b) 0); [lia|]. f_equal.
  rewrite Nat2Z.inj_div. symmetry.
  assert (Hz : (0 < Z.of_nat b)%Z) by lia. set (B := Z.of_nat b) in *. rewrite Nat2Z.inj_add, Nat2Z.inj_sub by lia. fold B. change (Z.of_nat 1) with 1%Z. set (L := Z.of_nat len).
  pose proof (Z.div_mod (L + (B - 1)) B ltac:(lia)). pose proof (Z.mod_pos_bound (L + (B - 1)) B Hz).
  pose proof (Z.div_mod L (- B) ltac:(lia)). pose proof (Z.mod_neg_bound L (- B) ltac:(lia)). nia.
Qed.

Lemma copy_slice (events : list Z) a b : a <= b -> b <= length events ->
  for_ a b (fun j tmp => e <- rd events j ;; Ok (tmp ++ [e])) [] = Ok (map (aget events) (seq a (b - a))).
Proof.
  intros Hab Hb. enough (G : wp (for_ a b (fun j tmp => e <- rd events j ;; Ok (tmp ++ [e])) []) (fun t => t = map (aget events) (seq a (b - a)))).
  { apply wp_ok in G. destruct G as (t & E & ->). exact E. }
  apply (wp_for (fun j t => t = map (aget events) (seq a (j - a)))); [lia|now rewrite Nat.sub_diag| |auto].
  intros j t Hj ->. wp1. wp1; [lia|]. wp1. replace (S j - a) with (S (j - a)) by lia. rewrite seq_S, map_app. cbn [map]. do 3 f_equal. lia.
Qed.

(** Every event is measured in every run, in the given order; event k belongs to bundle k / b. *)
Theorem C162_measured : forall num_test b inst events papi, 0 < b ->
  (forall i r v, i * b < length events -> snd (papi i r) = Some v -> length v = Nat.min b (length events - i * b)) ->
  exists bs F, profile num_test (Z.of_nat b) inst events papi [] = Ok bs /\ map event_code bs = events /\
    (forall k, k < length events -> counters bs.[k] = map (fun r => (F (k / b) r).[k mod b]) (seq 0 num_test)) /\
    forall i, i * b < length events -> counter_values (Nat.min b (length events - i * b)) (papi i) (F i).
Proof.
  intros num_test b inst events papi Hb HL.
  set (N := fun i => Nat.min b (length events - i * b)). set (F := fun i => after (N i) (papi i)).
  set (R := fun k => mkBundle events.[k] (map (fun r => (F (k / b) r).[k mod b]) (seq 0 num_test))).
  exists (map R (seq 0 (length events))), F. splits.
  2:{ rewrite map_map. cbn [R event_code]. apply nth_ext with (d := 0%Z) (d' := 0%Z); rewrite map_length, seq_length; auto.
      intros k Hk. rewrite nth_indep with (d' := aget events 0) by (now rewrite map_length, seq_length).
      rewrite map_nth with (f := fun x => events.[x]). now rewrite seq_nth by auto. }
  2:{ intros k Hk. unfold aget at 1. rewrite nth_indep with (d' := R 0) by (now rewrite map_length, seq_length). rewrite map_nth, seq_nth by auto. reflexivity. }
  2:{ intros i Hi. apply after_ok. }
  unfold profile. rewrite iters by auto. cbn [bind]. rewrite Nat2Z.id.
  set (it := (length events + (b - 1)) / b).
  assert (I1 : length events <= it * b).
  { pose proof (Nat.div_mod (length events + (b - 1)) b ltac:(lia)). pose proof (Nat.mod_upper_bound (length events + (b - 1)) b ltac:(lia)). fold it in H. nia. }
  assert (I2 : forall i, i < it -> i * b < length events).
  { intros i Hi. pose proof (Nat.div_mod (length events + (b - 1)) b ltac:(lia)). fold it in H. nia. }
  enough (G : wp (for_ 0 it (fun i found =>
      tmp <- for_ (Z.to_nat (Z.of_nat i * Z.of_nat b)) (Nat.min (Z.to_nat ((Z.of_nat i + 1) * Z.of_nat b)) (length events)) (fun j tmp => e <- rd events j ;; Ok (tmp ++ [e])) [] ;;
      let '(ctr, bs) := new_wrapper tmp inst in
      '(_, bs) <- measured_runs num_test (length tmp) (papi i) ctr bs ;; Ok (found ++ bs)) []) (fun bs => bs = map R (seq 0 (length events)))).
  { apply wp_ok in G. destruct G as (bs & E & ->). exact E. }
  apply (wp_for (fun i found => found = map R (seq 0 (Nat.min (i * b) (length events))))); [lia|reflexivity| |].
  2:{ intros found ->. now rewrite Nat.min_r by lia. }
  intros i found Hi ->. pose proof (I2 i ltac:(lia)) as Hib.
  replace (Z.to_nat (Z.of_nat i * Z.of_nat b)) with (i * b) by lia. replace (Z.to_nat ((Z.of_nat i + 1) * Z.of_nat b)) with (i * b + b) by lia.
  assert (HN : Nat.min (i * b + b) (length events) - i * b = N i) by (unfold N; lia).
  rewrite copy_slice by lia. rewrite HN. cbn [bind]. set (tmp := map (aget events) (seq (i * b) (N i))).
  assert (LT : length tmp = N i) by (unfold tmp; now rewrite map_length, seq_length).
  destruct (runs_ok num_test (papi i) tmp inst) as (c & E); [intros r v Hv; rewrite LT; eapply HL; eauto|].
  unfold new_wrapper in *. cbn [fst snd] in E. rewrite E. cbn [bind wp]. rewrite LT.
  replace (Nat.min (S i * b) (length events)) with (i * b + N i) by (unfold N; lia). rewrite Nat.min_l by lia.
  rewrite seq_app, map_app. f_equal. cbn [Nat.add]. apply nth_ext with (d := R 0) (d' := R 0); rewrite !map_length, !seq_length; auto.
  intros j Hj. rewrite map_nth, seq_nth by auto. rewrite nth_indep with (d' := row tmp (after (N i) (papi i)) num_test 0) by (now rewrite map_length, seq_length).
  rewrite map_nth, seq_nth by auto. unfold R, row. cbn [Nat.add]. assert (Hjb : j < b) by (unfold N in Hj; lia).
  assert (D1 : (i * b + j) / b = i) by (rewrite Nat.add_comm, Nat.div_add, Nat.div_small by lia; lia).
  assert (D2 : (i * b + j) mod b = j) by (rewrite Nat.add_comm, Nat.mod_add, Nat.mod_small by lia; lia).
  rewrite D1, D2. f_equal. unfold tmp, aget. rewrite nth_indep with (d' := aget events 0) by (now rewrite map_length, seq_length). rewrite map_nth, seq_nth by auto. reflexivity.
Qed.
Print Assumptions C162_measured.

(** A run in which PAPI can neither start nor stop appears as a second copy of the run before. *)
Theorem C162_failed_run : forall num_test b inst events papi bs k r, 0 < b ->
  (forall i r v, i * b < length events -> snd (papi i r) = Some v -> length v = Nat.min b (length events - i * b)) ->
  profile num_test (Z.of_nat b) inst events papi [] = Ok bs -> k < length events -> S r < num_test -> papi (k / b) (S r) = (false, None) ->
  (counters bs.[k]).[S r] = (counters bs.[k]).[r].
Proof.
  intros num_test b inst events papi bs k r Hb HL E Hk Hr Hp.
  destruct (C162_measured num_test b inst events papi Hb HL) as (bs' & F & E' & _ & H1 & H2). rewrite E in E'. injection E' as <-.
  rewrite H1 by auto. assert (Hi : k / b * b < length events) by (pose proof (Nat.div_mod k b ltac:(lia)); nia).
  pose proof (H2 _ Hi (S r)) as C. rewrite Hp in C.
  assert (G : forall q, q < num_test -> (map (fun r => (F (k / b) r).[k mod b]) (seq 0 num_test)).[q] = (F (k / b) q).[k mod b]).
  { intros q Hq. unfold aget at 1. rewrite nth_indep with (d' := (F (k / b) 0).[k mod b]) by (now rewrite map_length, seq_length).
    rewrite map_nth with (f := fun r => (F (k / b) r).[k mod b]). now rewrite seq_nth by auto. }
  rewrite !G by lia. now rewrite C.
Qed.
Print Assumptions C162_failed_run.

(** A bundle size of zero is a division by zero, with a negative one nothing is measured. *)
Theorem C162_bundle_size : forall num_test inst events papi,
  profile num_test 0 inst events papi [] = Err DivZero /\
  forall b, (b < 0)%Z -> profile num_test b inst events papi [] = Ok [].
Proof.
  intros num_test inst events papi. split; [reflexivity|]. intros b Hb. unfold profile, num_iter.
  destruct (Z.eqb_spec b 0); [lia|]. cbn [bind].
  assert (Z.to_nat (- (Z.of_nat (length events) / - b)) = 0) as ->; [|reflexivity].
  assert (0 <= Z.of_nat (length events) / - b)%Z by (apply Z.div_pos; lia). lia.
Qed.
Print Assumptions C162_bundle_size.

(** Printing reads one counter per run: the rows are the runs.  The number of instances given to the profiler does not
    change the number of runs, and with more instances than runs printing reads outside the counters. *)
Theorem C162_print : forall bs num_test inst, Forall (fun b => length (counters b) = num_test) bs ->
  (inst <= num_test -> print_counters bs (Z.of_nat inst) = Ok (flat_map (fun i => map (fun b => (counters b).[i]) bs) (seq 0 inst))) /\
  (num_test < inst -> bs <> [] -> print_counters bs (Z.of_nat inst) = Err OOB).
Proof.
  intros bs num_test inst HA. unfold print_counters. rewrite Nat2Z.id.
  assert (P : forall i, i < num_test -> print_counters_of bs i = Ok (map (fun b => (counters b).[i]) bs)).
  { intros i Hi. unfold print_counters_of.
    enough (G : wp (foreach bs (fun b out => c <- rd (counters b) i ;; Ok (out ++ [c])) []) (fun o => o = map (fun b => (counters b).[i]) bs)).
    { apply wp_ok in G. destruct G as (o & E & ->). exact E. }
    apply (wp_foreach (fun pre o => o = map (fun b => (counters b).[i]) pre)); [reflexivity| |auto].
    intros pre b post o E ->. wp1. wp1.
    - rewrite E in HA. apply Forall_app in HA. destruct HA as [_ HA]. inversion HA; subst. lia.
    - wp1. now rewrite map_app. }
  assert (Q : forall m, m <= num_test -> for_ 0 m (fun i out => row <- print_counters_of bs i ;; Ok (out ++ row)) [] = Ok (flat_map (fun i => map (fun b => (counters b).[i]) bs) (seq 0 m))).
  { intros m Hm. enough (G : wp (for_ 0 m (fun i out => row <- print_counters_of bs i ;; Ok (out ++ row)) []) (fun o => o = flat_map (fun i => map (fun b => (counters b).[i]) bs) (seq 0 m))).
    { apply wp_ok in G. destruct G as (o & E & ->). exact E. }
    apply (wp_for (fun j o => o = flat_map (fun i => map (fun b => (counters b).[i]) bs) (seq 0 j))); [lia|reflexivity| |auto].
    intros j o Hj ->. rewrite P by lia. cbn [bind wp]. rewrite seq_S, flat_map_app. cbn [flat_map Nat.add]. now rewrite app_nil_r. }
  split; [intros H; now apply Q|]. intros H Hne. rewrite (for_split _ 0 num_test inst) by lia. rewrite Q by lia. cbn [bind].
  rewrite for_step by lia. destruct bs as [|b bs]; [easy|]. inversion HA; subst.
  unfold print_counters_of. cbn [foreach]. rewrite rd_oob by lia. reflexivity.
Qed.
Print Assumptions C162_print.

(** three events in bundles of two, three runs; the last run of the first bundle fails *)
Example C162_case :
  let papi := fun i r => if (i =? 0) && (r =? 2) then (false, None) else (true, Some (map (fun j => Z.of_nat (100 * i + 10 * r + j)) (seq 0 (2 - i)))) in
  (forall i r v, i * 2 < 3 -> snd (papi i r) = Some v -> length v = Nat.min 2 (3 - i * 2)) /\
  profile 3 2 5 [7; 8; 9]%Z papi [] = Ok [mkBundle 7 [0; 10; 10]; mkBundle 8 [1; 11; 11]; mkBundle 9 [100; 110; 120]]%Z /\
  print_counters [mkBundle 7 [0; 10; 10]; mkBundle 8 [1; 11; 11]; mkBundle 9 [100; 110; 120]]%Z 4 = Err OOB.
Proof.
  cbv zeta. splits; [|vm_compute; reflexivity..].
  intros i r v Hi H. destruct ((i =? 0) && (r =? 2)); cbn [snd] in H; [discriminate|].
  injection H as <-. rewrite map_length, seq_length. destruct i as [|[|i]]; [reflexivity|reflexivity|lia].
Qed.
