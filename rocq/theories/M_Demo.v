(** Model of utils/FusionDemo.cpp (the test harness the solver classes derive from) and of
    include/aggregation/csv_utils.h (CSVManager). *)
From Verif Require Import Base Lib M_TestUtil.

Section Demo.
Context {V T S : Type} {DV : Dflt V} {DT : Dflt T}.
Variables (zero one : V) (far : V -> V -> bool) (isnan : V -> bool).
(** std::sort by elapsed time and the measurement returned for no runs, see [time_median] *)
Variables (sortt : list T -> list T) (none : T).
(** the virtual functions of a class with private data of type S; fused_code reads and writes x_in_ and x_ *)
Variables (build_set : S -> res S) (fused_code : list V -> list V -> S -> res (T * (list V * list V * S))).
(** n_ and correct_x_ (None: null pointer) *)
Variables (n : nat) (correct_x : option (list V)).

(** FusionDemo.cpp 65-68: setting_up *)
Definition setting_up (x_in x : list V) : res (list V * list V) :=
  x_in <- for_ 0 n (fun i l => wr l i one) x_in ;;
  x <- for_ 0 n (fun i l => wr l i zero) x ;;
  Ok (x_in, x).

(** 70-74: testing; whether the message is printed *)
Definition testing (x : list V) : res bool :=
  match correct_x with
  | None => Ok false
  | Some c => e <- is_equal_vec far isnan 0 n c x ;; Ok (negb e)
  end.

(** 77-100: evaluate (without PROFILE); [analysis_time_] is left out.  Returns the median, whether the message is
    printed, and x_in_, x_ and the data of the class afterwards. *)
Definition evaluate (num_test : nat) (x_in x : list V) (s : S) : res (T * bool * (list V * list V * S)) :=
  s <- build_set s ;;
  '(time_array, x_in, x, s) <- for_ 0 num_test (fun _ '(time_array, x_in, x, s) =>
    '(x_in, x) <- setting_up x_in x ;;
    '(t1, (x_in, x, s)) <- fused_code x_in x s ;;
    Ok (time_array ++ [t1], x_in, x, s)) ([], x_in, x, s) ;;
  m <- testing x ;;
  t <- time_median sortt none time_array ;;
  Ok (t, m, (x_in, x, s)).
End Demo.

(** * CSVManager *)

(** strings are lists of character codes *)
Definition str : Type := list nat.
Definition comma : nat := 44.
Definition newline : nat := 10.
Definition str_eqb (a b : str) : bool := if list_eq_dec Nat.eq_dec a b then true else false.

(** the members of the class and the contents of the file *)
Record csv := mkCsv { c_names : list str; c_status : list bool; c_record : list str; c_busy : bool; c_file : str }.

(** csv_utils.h 57-61 and 124-128: the elements separated by commas, then a newline.  end() - 1 and back() of an empty
    vector are out of range. *)
Definition put_line (l : list str) (file : str) : res str :=
  match rev l with
  | [] => Err OOB
  | x :: r => Ok (fold_left (fun f s => f ++ s ++ [comma]) (rev r) file ++ x ++ [newline])
  end.

(** 28-71: the constructor.  [old]: contents of an existing file of that name *)
Definition csv_open (names : list str) (force : bool) (old : option str) : res csv :=
  let blank file := mkCsv names (repeat false (length names)) (repeat [] (length names)) false file in
  match old with
  | Some f => if force then file <- put_line names [] ;; Ok (blank file) else Ok (blank f)
  | None => file <- put_line names [] ;; Ok (blank file)
  end.

(** std::find: the index of the first element equal to x *)
Fixpoint find_index (x : str) (l : list str) : option nat :=
  match l with
  | [] => None
  | y :: l => if str_eqb x y then Some 0 else option_map Datatypes.S (find_index x l)
  end.

(** 85-110: addElementToRecord; the element is given as the result of toString *)
Definition csv_add (element column : str) (c : csv) : res csv :=
  let status := if c_busy c then c_status c else repeat false (length (c_status c)) in
  match find_index column (c_names c) with
  | None => Ok (mkCsv (c_names c) status (c_record c) true (c_file c))
  | Some k => st <- wr status k true ;; re <- wr (c_record c) k element ;; Ok (mkCsv (c_names c) st re true (c_file c))
  end.

(** 116-132: addRecord *)
Definition csv_record (c : csv) : res csv :=
  if negb (c_busy c) then Ok c else
  complete <- forb_ 0 (length (c_names c)) (fun i _ => b <- rd (c_status c) i ;; Ok (if b : bool then (false, true) else (true, false))) true ;;
  if negb complete then Ok c else
  file <- put_line (c_record c) (c_file c) ;;
  Ok (mkCsv (c_names c) (c_status c) (c_record c) false file).

Inductive csv_op := Add (element column : str) | Rec.
Definition csv_step (o : csv_op) (c : csv) : res csv := match o with Add e col => csv_add e col c | Rec => csv_record c end.
Definition csv_run (ops : list csv_op) (c : csv) : res csv := foreach ops csv_step c.

(** * SptrsvSerial (example/sptrsv_demo_utils.h 22-42) and Sptrsv_LL_Serial (example/SpTRSV_runtime.h 48-66) *)
From Verif Require Import M_SpTRSV.

(** fused_code; [time] is the measured time, taken from the state *)
Definition serial_code {V} `{Dflt V} {T} fms quo (n : nat) (Lp Li : list nat) (Lx : list V) (x_in x : list V) (clock : list T) (t0 : T) :
    res (T * (list V * list V * list T)) :=
  x_in <- sptrsv_csr fms quo Lp Li Lx n x_in ;;
  x <- copy_vector_dense 0 n x_in x ;;
  Ok (hd t0 clock, (x_in, x, tl clock)).
