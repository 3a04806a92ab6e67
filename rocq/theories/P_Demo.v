(** Property C136: FusionDemo::evaluate. *)
From Coq Require Import ZifyBool ZifyNat Permutation.
From Verif Require Import Base Lib Lib2 Spec SpecSolve Check CheckS M_SpTRSV L_SpTRSV L_SpTRSV2 P_SpTRSV M_TestUtil M_Demo P_Compare P_Query.

Lemma fill_wp {V} `{Dflt V} n (v : V) l : length l = n -> for_ 0 n (fun i l => wr l i v) l = Ok (repeat v n).
Proof.
  intros L. assert (G : wp (for_ 0 n (fun i l => wr l i v) l) (fun r => r = repeat v n)).
  { apply (wp_for (fun k (r : list V) => r = repeat v k ++ skipn k l)); [lia|reflexivity| |].
    - intros k r Hk ->. apply wp_wr; [rewrite app_length, repeat_length, skipn_length; lia|].
      destruct (skipn k l) as [|y r] eqn:E; [apply (f_equal (@length V)) in E; rewrite skipn_length in E; cbn in E; lia|].
      assert (skipn (S k) l = r) as ->. { clear - E. revert l E. induction k as [|k IH]; intros [|z l] E; cbn in *; try discriminate; [now injection E|]. now apply IH. }
      clear E. induction k as [|k IH]; [reflexivity|]. cbn [repeat app upd]. f_equal. apply IH. lia.
    - intros r ->. rewrite skipn_all2 by lia. apply app_nil_r. }
  apply wp_ok in G. destruct G as (r & -> & ->). reflexivity.
Qed.

Section Evaluate.
Context {V T S : Type} {DV : Dflt V} {DT : Dflt T}.
Variables (zero one : V) (far : V -> V -> bool) (isnan : V -> bool).
Variables (sortt : list T -> list T) (none : T).
Variables (build_set : S -> res S) (fused_code : list V -> list V -> S -> res (T * (list V * list V * S))).
Variables (n : nat) (correct_x : option (list V)).

(** the data of the class stays in [ok] and every run started from ones and zeros leaves [y] in x_ *)
Definition runs (ok : S -> Prop) (y : list V) : Prop :=
  forall s, ok s -> exists t xi s', fused_code (repeat one n) (repeat zero n) s = Ok (t, (xi, y, s')) /\ ok s' /\ length xi = n.

(** what testing() prints: the message appears unless there is no reference or x_ agrees with it *)
Definition reported (x : list V) (m : bool) : Prop :=
  m = true <-> exists c, correct_x = Some c /\ ~ (forall i, i < n -> isnan c.[i] = false /\ isnan x.[i] = false /\ far c.[i] x.[i] = false).

Lemma testing_ok x : length x = n -> (forall c, correct_x = Some c -> n <= length c) -> exists m, testing far isnan n correct_x x = Ok m /\ reported x m.
Proof.
  intros LX LC. unfold testing, reported. destruct correct_x as [c|]; [|exists false; split; auto; split; [discriminate|intros (c & H & _); discriminate]].
  destruct (C120_vectors far isnan 0 n c x (LC c eq_refl) ltac:(lia)) as (r & E & Hr). rewrite E. cbn [bind]. exists (negb r). split; auto. split.
  - intros H. exists c. split; auto. intros A. destruct r; [discriminate|]. assert (false = true); [|discriminate]. apply Hr. intros i Hi. apply A. lia.
  - intros (c' & H & A). injection H as <-. destruct r; auto. exfalso. apply A. intros i Hi. apply Hr; auto. lia.
Qed.

(** C136.  Every run starts from ones and zeros, so after at least one the solution is that of a single run, whatever the
    number of tests and the earlier contents of the vectors. *)
Theorem C136_evaluate : forall ok y num_test x_in x s0 s, runs ok y -> length y = n -> build_set s0 = Ok s -> ok s ->
  length x_in = n -> length x = n -> (forall c, correct_x = Some c -> n <= length c) -> (forall l, Permutation (sortt l) l) -> 0 < num_test ->
  exists t m xi s', evaluate zero one far isnan sortt none build_set fused_code n correct_x num_test x_in x s0 = Ok (t, m, (xi, y, s')) /\
    ok s' /\ length xi = n /\ reported y m /\ exists times, length times = num_test /\ In t times /\ time_median sortt none times = Ok t.
Proof.
  intros ok y num x_in x s0 s HR LY EB OS L1 L2 LC SP HN. unfold evaluate. rewrite EB. cbn [bind].
  match goal with |- context [bind (for_ 0 num ?f ?a) _] => assert (G : wp (for_ 0 num f a) (fun '(ts, xi, x, s) => length ts = num /\ length xi = n /\ ok s /\ x = y)) end.
  { apply (wp_for (fun k '(ts, xi, x, s) => length ts = k /\ length xi = n /\ length x = n /\ ok s /\ (0 < k -> x = y))); [lia|splits; auto; lia| |].
    - intros k [[[ts xi] x'] s'] Hk (A & B & C & D & E). unfold setting_up. rewrite !fill_wp by auto. cbn [bind]. destruct (HR s' D) as (t & xi' & s'' & -> & O & LX). cbn [bind]. apply wp_ret.
      rewrite app_length. cbn [length]. splits; auto; lia.
    - intros [[[ts xi] x'] s'] (A & B & C & D & E). splits; auto. }
  apply wp_ok in G. destruct G as ([[[ts xi] x'] s'] & -> & A & B & D & ->). cbn [bind]. destruct (testing_ok y LY LC) as (m & -> & RM). cbn [bind].
  assert (LS : length (sortt ts) = length ts) by (now apply Permutation_length).
  assert (EM : exists t, time_median sortt none ts = Ok t /\ In t ts).
  { unfold time_median. rewrite A. destruct (Nat.eqb_spec num 0); [lia|]. destruct (Nat.eqb_spec num 1).
    - rewrite rd_ok by lia. eexists. split; [reflexivity|]. apply (Permutation_in _ (SP ts)). apply nth_In. lia.
    - assert (num / 2 < num) by (apply Nat.div_lt; lia). rewrite rd_ok by lia. eexists. split; [reflexivity|]. apply (Permutation_in _ (SP ts)). apply nth_In. lia. }
  destruct EM as (t & EM & IT). rewrite EM. cbn [bind]. exists t, m, xi, s'. splits; auto. exists ts. auto.
Qed.

(** Without tests nothing is solved: x_ keeps its contents, and these are compared with the reference. *)
Theorem C136_no_tests : forall x_in x s0 s, build_set s0 = Ok s -> length x = n -> (forall c, correct_x = Some c -> n <= length c) ->
  exists m, evaluate zero one far isnan sortt none build_set fused_code n correct_x 0 x_in x s0 = Ok (none, m, (x_in, x, s)) /\ reported x m.
Proof.
  intros x_in x s0 s EB L2 LC. unfold evaluate. rewrite EB. cbn [bind]. rewrite for_nil by lia. cbn [bind]. destruct (testing_ok x L2 LC) as (m & -> & RM). cbn. eauto.
Qed.
End Evaluate.
Print Assumptions C136_evaluate.
Print Assumptions C136_no_tests.

(** The serial class: solution() is the solution of L x = (1, ..., 1) by forward substitution. *)
Theorem C136_serial_solution : forall (V T : Type) (DV : Dflt V) (DT : Dflt T) zero one far isnan sortt none t0 fms quo n Lp Li (Lx : list V) correct num_test x_in x clock,
  lower_rows n Lp Li Lx -> length x_in = n -> length x = n -> (forall c, correct = Some c -> n <= length c) -> (forall l : list T, Permutation (sortt l) l) -> 0 < num_test ->
  exists t m xi y s', evaluate zero one far isnan sortt none (fun s => Ok s) (fun xi x s => serial_code fms quo n Lp Li Lx xi x s t0) n correct num_test x_in x clock = Ok (t, m, (xi, y, s')) /\
    forward_solution fms quo n Lp Li Lx (repeat one n) y /\ length y = n /\ reported far isnan n correct y m.
Proof.
  intros V T DV DT zero one far isnan sortt none t0 fms quo n Lp Li Lx correct num x_in x clock (WR & LT & HX) L1 L2 LC SP HN.
  assert (G := sptrsv_csr_wp fms quo n Lp Li Lx WR HX (repeat one n) (fun y => forward_solution fms quo n Lp Li Lx (repeat one n) y) LT ltac:(rewrite repeat_length; lia) (fun y Hy => Hy)).
  apply wp_ok in G. destruct G as (y0 & EY & FS). assert (LY0 : length y0 = n) by (destruct FS as (E & _); rewrite E, repeat_length; auto).
  destruct (C126_copy 0 n y0 (repeat zero n) ltac:(lia) ltac:(rewrite repeat_length; lia)) as (y & EC & LY & VY). rewrite repeat_length in LY.
  assert (y = y0) as ->. { apply nth_ext with (d := dflt) (d' := dflt); [lia|]. intros i Hi. change (y.[i] = y0.[i]). rewrite VY. destruct (Nat.ltb_spec i n); [reflexivity|lia]. }
  destruct (C136_evaluate zero one far isnan sortt none (fun s => Ok s) (fun xi x s => serial_code fms quo n Lp Li Lx xi x s t0) n correct (fun _ => True) y0 num x_in x clock clock) as (t & m & xi & s' & E & _ & _ & RM & _); auto.
  - intros s _. exists (hd t0 s), y0, (tl s). unfold serial_code. rewrite EY. cbn [bind]. rewrite EC. cbn. auto.
  - exists t, m, xi, y0, s'. auto.
Qed.
Print Assumptions C136_serial_solution.

(** A class that runs a schedule in parallel: under every interleaving in every run the solution is the same. *)
Theorem C136_parallel_solution : forall (V T S : Type) (DV : Dflt V) (DT : Dflt T) zero one far isnan sortt none build fused fms quo n Lp Li (Lx : list V) P correct num_test x_in x (s0 s1 : S),
  same_as_serial fms quo n Lp Li Lx (repeat one n) P ->
  (forall xi x s, length xi = n -> exists t x' s', fused xi x s = Ok (t, (x', x', s')) /\ x_exec fms quo Lp Li Lx P xi x') -> build s0 = Ok s1 ->
  length x_in = n -> length x = n -> (forall c, correct = Some c -> n <= length c) -> (forall l : list T, Permutation (sortt l) l) -> 0 < num_test ->
  exists t m xi y s', evaluate zero one far isnan sortt none build fused n correct num_test x_in x s0 = Ok (t, m, (xi, y, s')) /\
    sptrsv_csr fms quo Lp Li Lx n (repeat one n) = Ok y /\ forward_solution fms quo n Lp Li Lx (repeat one n) y.
Proof.
  intros V T S DV DT zero one far isnan sortt none build fused fms quo n Lp Li Lx P correct num x_in x s0 s1 (y & EY & FS & _ & _ & _ & UX) HF EB L1 L2 LC SP HN.
  assert (LY : length y = n) by (destruct FS as (E & _); rewrite E, repeat_length; auto).
  destruct (C136_evaluate zero one far isnan sortt none build fused n correct (fun _ => True) y num x_in x s0 s1) as (t & m & xi & s' & E & _ & _ & RM & _); auto.
  - intros s _. destruct (HF (repeat one n) (repeat zero n) s (repeat_length _ _)) as (t & x' & s' & E & X). apply UX in X. subst x'. exists t, y, s'. auto.
  - exists t, m, xi, y, s'. auto.
Qed.
Print Assumptions C136_parallel_solution.

(** a row-wise lower triangular matrix with integer values; two runs, reference given *)
Example C136_nonvacuous : let Lp := [0;1;3;5] in let Li := [0; 0;1; 1;2] in let Lx := [1;2;-1;3;2]%Z in
  lower_rows 3 Lp Li Lx /\
  evaluate 0%Z 1%Z (fun a b => negb (a =? b)%Z) (fun _ => false) (fun l => l) 9 (fun s => Ok s)
    (fun xi x s => serial_code (fun a l d => a - l * d)%Z Z.div 3 Lp Li Lx xi x s 9) 3 (Some [1;1;-1]%Z) 2 [7;7;7]%Z [5;5;5]%Z [3;4] = Ok (4, false, ([1;1;-1]%Z, [1;1;-1]%Z, [])).
Proof.
  cbv zeta. split; [|vm_compute; reflexivity]. unfold lower_rows. splits; [now apply wf_rowsb_ok|now apply rows_lowerb_ok|cbn; lia].
Qed.
