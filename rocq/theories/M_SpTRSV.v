(** Model of the sparse triangular solves (example/sptrsv_src/sptrsv.cpp, executor.cpp).

    The value type [V] and its two operations are arbitrary: [fms a l d] is the result
    of a -= l * d (contracted or not), [quo a l] of a /= l.  No algebraic law is used,
    so equality of results means equality bit for bit.

    The parallel executors are a small-step machine: every iteration of an
    [omp for] is a thread of its own, every step performs one access to the
    shared vector x (reads of the constant arrays Lp, Li, Lx are free), steps
    of different threads interleave arbitrarily, and the implicit barrier ends
    each level.  Any assignment of iterations to OpenMP threads is a subset of
    these interleavings. *)
From Verif Require Export Base.

Section Exec.
Context {V : Type}.
Variables (fms : V -> V -> V -> V) (quo : V -> V -> V).
Variables (Lp Li : list nat) (Lx : list V).

(** ** Single-threaded code *)

(** sptrsv.cpp 15-18: one row.  With Lp[i+1] = 0 the divisor's index is -1. *)
Definition solve_row (i : nat) (x : list V) : res (list V) :=
  b <- rd Lp i ;; e <- rd Lp (S i) ;;
  x1 <- for_ b (e - 1) (fun j x =>
     l <- rd Lx j ;; c <- rd Li j ;; d <- rd x c ;; a <- rd x i ;; wr x i (fms a l d)) x ;;
  if e =? 0 then Err OOB
  else l <- rd Lx (e - 1) ;; a <- rd x1 i ;; wr x1 i (quo a l).

(** sptrsv.cpp 12-20: sptrsv_csr *)
Definition sptrsv_csr (n : nat) (x : list V) : res (list V) := for_ 0 n solve_row x.

(** sptrsv.cpp 47-61: sptrsv_csr_levelset_seq *)
Definition sptrsv_csr_levelset_seq (levels : nat) (levelPtr levelSet : list nat) (x : list V) : res (list V) :=
  for_ 0 levels (fun l x =>
    a <- rd levelPtr l ;; b <- rd levelPtr (S l) ;;
    for_ a b (fun k x => i <- rd levelSet k ;; solve_row i x) x) x.

(** sptrsv.cpp 63-82: sptrsv_csr_lbc_seq *)
Definition sptrsv_csr_lbc_seq (level_no : nat) (level_ptr par_ptr partition : list nat) (x : list V) : res (list V) :=
  for_ 0 level_no (fun i1 x =>
    a <- rd level_ptr i1 ;; b <- rd level_ptr (S i1) ;;
    for_ a b (fun j1 x =>
      c <- rd par_ptr j1 ;; d <- rd par_ptr (S j1) ;;
      for_ c d (fun k1 x => i <- rd partition k1 ;; solve_row i x) x) x) x.

(** ** Machine *)

(** Program points inside one row [i]:
    [RStart]: about to read j = Lp[i];
    [RLoop j]: about to test j < Lp[i+1]-1 and then read x[Li[j]] (or, at the end, x[i]);
    [RGotD j d]: about to read x[i];  [RGotA j d a]: about to write x[i];
    [RDiv a]: about to write x[i] /= Lx[Lp[i+1]-1]. *)
Inductive rpc := RStart | RLoop (j : nat) | RGotD (j : nat) (d : V) | RGotA (j : nat) (d a : V) | RDiv (a : V).

(** one step on row [i]: [None] as next point means the row is finished *)
Definition row_step (i : nat) (pc : rpc) (x : list V) : res (option rpc * list V) :=
  match pc with
  | RStart => j <- rd Lp i ;; Ok (Some (RLoop j), x)
  | RLoop j =>
      e <- rd Lp (S i) ;;
      if j <? e - 1 then c <- rd Li j ;; d <- rd x c ;; Ok (Some (RGotD j d), x)
      else a <- rd x i ;; Ok (Some (RDiv a), x)
  | RGotD j d => a <- rd x i ;; Ok (Some (RGotA j d a), x)
  | RGotA j d a => l <- rd Lx j ;; x' <- wr x i (fms a l d) ;; Ok (Some (RLoop (S j)), x')
  | RDiv a =>
      e <- rd Lp (S i) ;;
      if e =? 0 then Err OOB
      else l <- rd Lx (e - 1) ;; x' <- wr x i (quo a l) ;; Ok (None, x')
  end.

(** a thread: position in its list of rows, point inside that row *)
Definition tst : Type := nat * rpc.

(** [prog.[l].[t]] is the list of rows of iteration [t] of level [l] *)
Definition prog := list (list (list nat)).

(** machine state: current level, its threads, the vector x *)
Definition xstate : Type := nat * list tst * list V.

Definition thread_step (rows : list nat) (t : tst) (x : list V) : res (tst * list V) :=
  let '(q, pc) := t in
  i <- rd rows q ;;
  '(pc', x') <- row_step i pc x ;;
  Ok (match pc' with Some p => (q, p) | None => (S q, RStart) end, x').

Definition thread_done (rows : list nat) (t : tst) : Prop := fst t = length rows.

Definition enter (P : prog) (l : nat) : list tst := repeat (0, RStart) (length P.[l]).

Inductive x_step (P : prog) : xstate -> xstate -> Prop :=
| xs_thread l ths x t th th' x' :
    l < length P -> nth_error ths t = Some th -> ~ thread_done P.[l].[t] th ->
    thread_step P.[l].[t] th x = Ok (th', x') ->
    x_step P (l, ths, x) (l, upd ths t th', x')
| xs_barrier l ths x :
    l < length P -> (forall t th, nth_error ths t = Some th -> thread_done P.[l].[t] th) ->
    x_step P (l, ths, x) (S l, enter P (S l), x).

Inductive x_steps (P : prog) : xstate -> xstate -> Prop :=
| xss_refl s : x_steps P s s
| xss_step s s' s'' : x_steps P s s' -> x_step P s' s'' -> x_steps P s s''.

Definition x_start (P : prog) (x : list V) : xstate := (0, enter P 0, x).

Definition x_final (P : prog) (s : xstate) : Prop := fst (fst s) = length P.

(** some thread's next access fails *)
Definition x_bad (P : prog) (s : xstate) : Prop :=
  let '(l, ths, x) := s in
  l < length P /\ exists t th e, nth_error ths t = Some th /\ ~ thread_done P.[l].[t] th /\
    thread_step P.[l].[t] th x = Err e.

(** the access to x of a thread's next step: (is it a write, index) *)
Definition next_access (rows : list nat) (t : tst) : option (bool * nat) :=
  if fst t <? length rows then
    let i := rows.[fst t] in
    match snd t with
    | RStart => None
    | RLoop j => if j <? Lp.[S i] - 1 then Some (false, Li.[j]) else Some (false, i)
    | RGotD _ _ => Some (false, i)
    | RGotA _ _ _ => Some (true, i)
    | RDiv _ => Some (true, i)
    end
  else None.

(** two threads' next steps touch the same element and one of them writes it *)
Definition x_race (P : prog) (s : xstate) : Prop :=
  let '(l, ths, x) := s in
  exists t t' th th' w w' c, t <> t' /\ nth_error ths t = Some th /\ nth_error ths t' = Some th' /\
    next_access P.[l].[t] th = Some (w, c) /\ next_access P.[l].[t'] th' = Some (w', c) /\ (w || w' = true).

(** [x'] is the content of x after some complete execution *)
Definition x_exec (P : prog) (x x' : list V) : Prop :=
  exists l ths, x_steps P (x_start P x) (l, ths, x') /\ l = length P.

End Exec.
Arguments rpc V : clear implicits.

(** ** The rows each executor's iterations visit.  The arrays are constant during the
    solve; their reads are performed up front. *)

(** the level loop shared by all executors *)
Definition level_prog (rows : nat -> res (list nat)) (levels : nat) (level_ptr : list nat) : res prog :=
  for_ 0 levels (fun l acc =>
    a <- rd level_ptr l ;; b <- rd level_ptr (S l) ;;
    its <- for_ a b (fun k its => r <- rows k ;; Ok (its ++ [r])) [] ;;
    Ok (acc ++ [its])) [].

(** sptrsv.cpp 24-45 and 131-151: sptrsv_csr_levelset *)
Definition levelset_prog (levels : nat) (levelPtr levelSet : list nat) : res prog :=
  level_prog (fun k => i <- rd levelSet k ;; Ok [i]) levels levelPtr.

(** sptrsv.cpp 84-102: sptrsv_csr_lbc *)
Definition lbc_prog (level_no : nat) (level_ptr par_ptr partition : list nat) : res prog :=
  level_prog (fun j1 => a <- rd par_ptr j1 ;; b <- rd par_ptr (S j1) ;;
    for_ a b (fun k1 acc => i <- rd partition k1 ;; Ok (acc ++ [i])) []) level_no level_ptr.

(** sptrsv.cpp 104-126: sptrsv_csr_group_lbc *)
Definition group_lbc_prog (level_no : nat) (level_ptr par_ptr partition groupPtr groupSet : list nat) : res prog :=
  level_prog (fun j1 => a <- rd par_ptr j1 ;; b <- rd par_ptr (S j1) ;;
    for_ a b (fun k1 acc =>
      p <- rd partition k1 ;; g <- rd groupPtr p ;; h <- rd groupPtr (S p) ;;
      for_ g h (fun k acc => i <- rd groupSet k ;; Ok (acc ++ [i])) acc) []) level_no level_ptr.

(** sptrsv.cpp 153-177: sptrsv_csr_group_levelset; executor.cpp 11-32: fs_csr_executor_sgroup
    is the same code (its null-pointer guard aside) *)
Definition group_levelset_prog (level_no : nat) (level_ptr level_set groupPtr groupSet : list nat) : res prog :=
  level_prog (fun j1 => p <- rd level_set j1 ;; g <- rd groupPtr p ;; h <- rd groupPtr (S p) ;;
    for_ g h (fun k acc => i <- rd groupSet k ;; Ok (acc ++ [i])) []) level_no level_ptr.

(** rows: 0; 1; 2 = f(0,1); 3 = f(2) over the integers with a - l*d and a / l *)
Example sptrsv_run :
  sptrsv_csr (fun a l d => (a - l * d)%Z) Z.div [0;1;2;5;7] [0;1;0;1;2;2;3] [1;2;3;1;1;2;1]%Z 4 [5;8;30;33]%Z
    = Ok [5;4;11;11]%Z.
Proof. vm_compute. reflexivity. Qed.
