(** Models of the test utilities (utils/test_utils.cpp, include/aggregation/test_utils.h), of time_median and
    strip_name (utils/utils.cpp), of timing_measurement (include/aggregation/def.h) and of the small queries of
    utils/sparse_utilities.cpp.  A negative loop bound is 0 here: the loops do nothing in both cases. *)
From Coq Require Import Ascii.
From Verif Require Import Base Lib M_Mat.

Section Values.
Context {V : Type} {DV : Dflt V}.

(** [far a b]: std::abs(a - b) > eps; [isnan]: std::isnan *)
Variables (far : V -> V -> bool) (isnan : V -> bool).

(** test_utils.h 47-54 *)
Definition is_equal_val (n : nat) (vec : list V) (val : V) : res bool :=
  forb_ 0 n (fun i _ => v <- rd vec i ;; Ok (if far v val then (true, false) else (false, true))) true.

(** test_utils.h 65-80 *)
Definition is_equal_vec (beg_idx end_idx : nat) (vec1 vec2 : list V) : res bool :=
  forb_ beg_idx end_idx (fun i _ => a <- rd vec1 i ;;
    nan <- (if isnan a then Ok true else b <- rd vec2 i ;; Ok (isnan b)) ;;
    if nan : bool then Ok (true, false)
    else b <- rd vec2 i ;; Ok (if far a b then (true, false) else (false, true))) true.

(** test_utils.cpp 77-85: two index arrays are compared *)
Definition same_ints (len : nat) (a b : list nat) : res bool :=
  forb_ 0 len (fun j _ => x <- rd a j ;; y <- rd b j ;; Ok (if x =? y then (false, true) else (true, false))) true.

(** test_utils.cpp 73-91 *)
Definition is_equal_csc (A B : csc V) : res bool :=
  if negb ((cn A =? cn B) && (cnnz A =? cnnz B)) then Ok false else
  s <- same_ints (cn A + 1) (cp A) (cp B) ;;
  if negb s then Ok false else
  s <- same_ints (cnnz A) (ci A) (ci B) ;;
  if negb s then Ok false else
  forb_ 0 (cnnz A) (fun i _ => a <- rd (cx A) i ;; b <- rd (cx B) i ;; Ok (if far a b then (true, false) else (false, true))) true.

Variables (zero : V) (add : V -> V -> V).

(** test_utils.cpp 93-103 *)
Definition rhs_init (n : nat) (Ap Ai : list nat) (Ax b : list V) : res (list V) :=
  b <- for_ 0 n (fun j b => wr b j zero) b ;;
  for_ 0 n (fun c b => lo <- rd Ap c ;; hi <- rd Ap (S c) ;;
    for_ lo hi (fun cc b => r <- rd Ai cc ;; x <- rd Ax cc ;; v <- rd b r ;; wr b r (add v x)) b) b.

(** 106-118; nBlocks is not used *)
Definition rhs_init_blocked (n : nat) (Ap Ai AiP : list nat) (Ax b : list V) : res (list V) :=
  b <- for_ 0 n (fun j b => wr b j zero) b ;;
  for_ 0 n (fun c b => lo <- rd Ap c ;; hi <- rd Ap (S c) ;;
    for_ lo hi (fun cc b => q <- rd AiP c ;; r <- rd Ai (q + (cc - lo)) ;; x <- rd Ax cc ;; v <- rd b r ;; wr b r (add v x)) b) b.

(** [gtb]: >;  [dist a b]: fabs(a - b);  [mag a]: fabs(a) *)
Variables (gtb : V -> V -> bool) (dist : V -> V -> V) (mag : V -> V).

(** sparse_utilities.cpp 476-482 *)
Definition residual (beg_idx end_idx : nat) (x0 x1 : list V) : res V :=
  for_ beg_idx end_idx (fun i mx => a <- rd x0 i ;; b <- rd x1 i ;; Ok (if gtb (dist a b) mx then dist a b else mx)) zero.

(** 485-492 *)
Definition norm (size : nat) (vec : list V) : res V :=
  for_ 0 size (fun i mx => a <- rd vec i ;; Ok (if gtb (mag a) mx then mag a else mx)) zero.

(** 539-542 *)
Definition copy_vector_dense (b e : nat) (src dst : list V) : res (list V) :=
  for_ b e (fun i dst => v <- rd src i ;; wr dst i v) dst.

(** 545-553 *)
Definition number_empty_col (A : csc V) : res nat :=
  for_ 0 (cn A) (fun i cnt => b <- rd (cp A) (S i) ;; a <- rd (cp A) i ;; Ok (if b =? a then S cnt else cnt)) 0.

(** 94-102 *)
Definition verify_csc_diagonal (A : csc V) : res bool :=
  forb_ 0 (cn A) (fun i _ => a <- rd (cp A) i ;; r <- rd (ci A) a ;; Ok (if r =? i then (false, true) else (true, false))) true.

(** 1133-1137; the counts are converted to double *)
Definition compute_nnz_per_col (A : csc V) (cnt : list nat) : res (list nat) :=
  for_ 0 (cn A) (fun i cnt => b <- rd (cp A) (S i) ;; a <- rd (cp A) i ;; wr cnt i (b - a)) cnt.

(** 753-764; the array is not initialised: [None] *)
Definition extract_diagonals (n : nat) (Ap Ai : list nat) : res (list (option nat)) :=
  for_ 0 n (fun i ret => lo <- rd Ap i ;; hi <- rd Ap (S i) ;;
    forb_ lo hi (fun j ret => r <- rd Ai j ;;
      if r =? i then ret <- wr ret i (Some j) ;; Ok (true, ret) else Ok (false, ret)) ret) (repeat None n).

(** test_utils.cpp 19-32; [shuffled] is the vector 0..n-1 after std::shuffle *)
Definition generate_uniq_rand_vector (m : nat) (shuffled rand_vec : list nat) : res (list nat) :=
  for_ 0 m (fun j v => x <- rd shuffled j ;; Ok (v ++ [x])) rand_vec.

(** 36-60.  [nz] is the int (density * n + 1), [shuffle i] the effect of std::shuffle in iteration [i], [rnd k] the
    k-th result of double_rand.  39 compares the int with a size_t: a negative one is larger than n.  std::sort on
    ints has one result. *)
Definition random_square_sparse (n : nat) (nz : Z) (shuffle : nat -> list nat -> list nat) (rnd : nat -> V) : res (option (csc V)) :=
  let npc := if (nz <? 0)%Z || (Z.of_nat n <? nz)%Z then n else Z.to_nat nz in
  let nnz := n * npc in
  if (2147483647 <? Z.of_nat nnz)%Z then Ok None else
  let A := new_csc n n nnz false in
  p <- wr (cp A) 0 0 ;;
  '(p, i, x) <- for_ 0 n (fun i '(p, idx, x) =>
    a <- rd p i ;; p <- wr p (S i) (a + npc) ;;
    v <- generate_uniq_rand_vector npc (shuffle i (seq 0 n)) [] ;;
    v <- (if existsb (Nat.eqb i) v then Ok v else wr v 0 i) ;;
    let v := isort v in
    '(idx, x) <- for_ a (a + npc) (fun j '(idx, x) => r <- rd v (j - a) ;; idx <- wr idx j r ;; x <- wr x j (rnd j) ;; Ok (idx, x)) (idx, x) ;;
    Ok (p, idx, x)) (p, ci A, cx A) ;;
  Ok (Some (mkCSC n n nnz false 0%Z p i x)).
End Values.

(** test_utils.cpp 120-135; [assert] as in a debug build *)
Definition test_unique (n : nat) (vec : list Z) : res bool :=
  tmp <- for_ 0 n (fun i tmp => v <- rd vec i ;;
    if (v <? Z.of_nat n)%Z && (0 <=? v)%Z then wr tmp (Z.to_nat v) true else Err Throw) (repeat false n) ;;
  forb_ 0 n (fun j _ => t <- rd tmp j ;; Ok (if t : bool then (false, true) else (true, false))) true.

(** utils.cpp 14-26; [sortt] is std::sort by elapsed time, [none] the measurement of 18-19 *)
Definition time_median {A} (sortt : list A -> list A) (none : A) (time_array : list A) : res A :=
  let n := length time_array in
  if n =? 0 then Ok none else
  let s := sortt time_array in
  if n =? 1 then rd s 0 else rd s (n / 2).

(** * timing_measurement: def.h 39-70 *)

(** elapsed_time and t_array; time points and durations are integers (ticks of the clock) *)
Definition timer : Type := Z * list Z.
Definition new_timer : timer := (0%Z, []).

Inductive timer_op := Start | Measure.

(** 49-52 and 54-61 (assert as in a debug build); [now] is the time of the call *)
Definition timer_do (op : timer_op) (now : Z) (t : timer) : res timer :=
  match op with
  | Start => Ok (fst t, snd t ++ [now])
  | Measure => if 0 <? length (snd t) then s <- rd (snd t) 0 ;; Ok ((now - s)%Z, snd t ++ [now]) else Err Throw
  end.

Definition timer_run (ops : list (timer_op * Z)) (t : timer) : res timer :=
  foreach ops (fun o t => timer_do (fst o) (snd o) t) t.

(** * strip_name: utils.cpp 169-175 *)

Definition npos : Z := (2 ^ 64 - 1)%Z.

(** std::string::rfind *)
Fixpoint rfind_at (c : ascii) (s : list ascii) (k : nat) (found : Z) : Z :=
  match s with
  | [] => found
  | x :: s => rfind_at c s (S k) (if Ascii.eqb x c then Z.of_nat k else found)
  end.
Definition rfind (c : ascii) (s : list ascii) : Z := rfind_at c s 0 npos.

(** std::string::substr; arguments are size_t *)
Definition substr (s : list ascii) (pos len : Z) : res (list ascii) :=
  if (Z.of_nat (length s) <? pos)%Z then Err Throw else
  let rest := skipn (Z.to_nat pos) s in
  Ok (if (Z.of_nat (length rest) <=? len)%Z then rest else firstn (Z.to_nat len) rest).

Definition strip_name (name : list ascii) : res (list ascii) :=
  let p1 := rfind "/" name in
  let p2 := rfind "." name in
  substr name (if (p1 =? npos)%Z then 0 else (p1 + 1) mod 2 ^ 64)%Z
              (if (p2 =? npos)%Z then npos else (p2 - p1 - 1) mod 2 ^ 64)%Z.

Example strip_run :
  strip_name ["d";"/";"a";".";"b";".";"m"]%char = Ok ["a";".";"b"]%char /\ strip_name ["d";".";"x";"/";"a"]%char = Ok ["a"]%char /\
  strip_name ["a";".";"m"]%char = Ok ["a"]%char.
Proof. vm_compute. auto. Qed.
Example random_run :
  random_square_sparse 3 2 (fun i l => skipn i l ++ firstn i l) (fun k => Z.of_nat k) =
    Ok (Some (mkCSC 3 3 6 false 0%Z [0;2;4;6] [0;1;1;2;0;2] [0;1;2;3;4;5]%Z)).
Proof. vm_compute. reflexivity. Qed.
