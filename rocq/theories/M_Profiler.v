(** Model of the measuring loop: Profiler::profile, print_headers and print_counters
    (include/aggregation/Profiler.h 45-127), the counters of PAPIWrapper (include/aggregation/PAPIWrapper.h
    36-87) and the part of FusionDemo::evaluate that calls it (utils/FusionDemo.cpp 84-95, with PROFILE).

    PAPI is a parameter: [papi i r] is its behaviour in run [r] of bundle [i]: whether begin_profiling
    reaches the loop that clears the counters, and what PAPI_stop writes to them ([None]: it fails and
    writes nothing).  Event names, the kernel that is measured and the figures copied from the demo
    object are left out.  Integer codes and counters are unbounded. *)
From Verif Require Import Base Lib.

(** EventCounterBundle, PAPIWrapper.h 15-19 *)
Record bundle := mkBundle { event_code : Z; counters : list Z }.

(** PAPIWrapper.h 36-48; new long long[n]() is zeroed.  The number of instances is not used. *)
Definition new_wrapper (events : list Z) (num_instances : Z) : list Z * list bundle :=
  (repeat 0%Z (length events), map (fun e => mkBundle e []) events).

(** 55-77: the counters are cleared unless one of the first three calls fails *)
Definition begin_profiling (ok : bool) (ctr : list Z) : list Z := if ok then repeat 0%Z (length ctr) else ctr.

(** 79-87 *)
Definition finish_profiling (num_events : nat) (ans : option (list Z)) (ctr : list Z) (bs : list bundle) : res (list Z * list bundle) :=
  let ctr := match ans with Some v => v | None => ctr end in
  bs <- for_ 0 num_events (fun j bs =>
    b <- @rd bundle bs j ;; c <- rd ctr j ;; wr bs j (mkBundle (event_code b) (counters b ++ [c]))) bs ;;
  Ok (ctr, bs).

(** FusionDemo.cpp 84-95 *)
Definition measured_runs (num_test num_events : nat) (papi : nat -> bool * option (list Z)) (ctr : list Z) (bs : list bundle) : res (list Z * list bundle) :=
  for_ 0 num_test (fun r '(ctr, bs) =>
    let '(ok, ans) := papi r in finish_profiling num_events ans (begin_profiling ok ctr) bs) (ctr, bs).

(** ceil(size / (double) bundle_size); the conversion of an infinite or undefined value to int is undefined *)
Definition num_iter (size : nat) (bundle_size : Z) : res Z :=
  if (bundle_size =? 0)%Z then Err DivZero else Ok (- (Z.of_nat size / - bundle_size))%Z.

(** Profiler.h 45-72 (and 75-105) *)
Definition profile (num_test : nat) (bundle_size num_instances : Z) (events : list Z) (papi : nat -> nat -> bool * option (list Z)) (found : list bundle) : res (list bundle) :=
  it <- num_iter (length events) bundle_size ;;
  for_ 0 (Z.to_nat it) (fun i found =>
    tmp <- for_ (Z.to_nat (Z.of_nat i * bundle_size)) (Nat.min (Z.to_nat ((Z.of_nat i + 1) * bundle_size)) (length events))
             (fun j tmp => e <- rd events j ;; Ok (tmp ++ [e])) [] ;;
    let '(ctr, bs) := new_wrapper tmp num_instances in
    '(_, bs) <- measured_runs num_test (length tmp) (papi i) ctr bs ;;
    Ok (found ++ bs)) found.

(** Profiler.h 122-126, 114-120 *)
Definition print_counters_of (found : list bundle) (i : nat) : res (list Z) :=
  foreach found (fun b out => c <- rd (counters b) i ;; Ok (out ++ [c])) [].
Definition print_counters (found : list bundle) (num_instances : Z) : res (list Z) :=
  for_ 0 (Z.to_nat num_instances) (fun i out => row <- print_counters_of found i ;; Ok (out ++ row)) [].
