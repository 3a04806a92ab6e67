(** Model of the incomplete Cholesky kernels (example/old/spic0.cpp) and of their
    operation counter (example/sptrsv_src/executor.cpp 68-105).

    The value type [V] and its operations are arbitrary: [fms a x y] is the result of
    a -= x * y, [quo a d] of a / d, [root a] of sqrt(a).

    The parallel kernels are a small-step machine: every iteration of an [omp for] is a
    thread of its own, every step performs one access to the shared array Lx (the index
    arrays are constant and read up front), an [omp atomic] update is one step, steps of
    different threads interleave arbitrarily, and the implicit barrier ends each level. *)
From Verif Require Export Base M_SpTRSV.

(** ** Serial code *)
Section Serial.
Context {V : Type}.
Variables (fms : V -> V -> V -> V) (quo : V -> V -> V) (root : V -> V).

(** spic0.cpp 35-54: one column of ic0_csc *)
Definition ic0_col (Lp Li : list nat) (i : nat) (x : list V) : res (list V) :=
  a <- rd Lp i ;;
  temp <- rd x a ;; v <- rd x a ;; x <- wr x a (quo v (root temp)) ;;
  e <- rd Lp (S i) ;;
  x <- for_ (S a) e (fun m x => v <- rd x m ;; d <- rd x a ;; wr x m (quo v d)) x ;;
  for_ (S a) e (fun m x =>
    c <- rd Li m ;; b <- rd Lp c ;; f <- rd Lp (S c) ;;
    for_ b f (fun k x =>
      forb_ m e (fun l x =>
        rl <- rd Li l ;; rk <- rd Li k ;;
        if rl =? rk then
          u <- rd x m ;; w <- rd x l ;; v <- rd x k ;; x' <- wr x k (fms v u w) ;; Ok (false, x')
        else Ok (rk <? rl, x)) x) x) x.

(** spic0.cpp 30-56: ic0_csc *)
Definition ic0_csc (n : nat) (Lp Li : list nat) (x : list V) : res (list V) :=
  for_ 0 n (ic0_col Lp Li) x.

(** spic0.cpp 9-28: spic0_csr.  The assertion (line 11) is not modelled; Lp[i+1] = 0
    would index Lx at -1. *)
Definition spic0_csr_row (Lp Li : list nat) (i : nat) (x : list V) : res (list V) :=
  e <- rd Lp (S i) ;;
  if e =? 0 then Err OOB else
  v <- rd x (e - 1) ;; x <- wr x (e - 1) (root v) ;;
  a <- rd Lp i ;;
  x <- for_ a (e - 1) (fun m x => v <- rd x m ;; d <- rd x (e - 1) ;; wr x m (quo v d)) x ;;
  for_ a (e - 1) (fun m x =>
    c <- rd Li m ;; b <- rd Lp c ;; f <- rd Lp (S c) ;;
    for_ b f (fun k x =>
      for_ m (e - 1) (fun l x =>
        rl <- rd Li l ;; rk <- rd Li k ;;
        if rl =? rk then
          rn <- rd Li (S l) ;;
          if rn <=? rk then u <- rd x m ;; w <- rd x l ;; v <- rd x k ;; wr x k (fms v u w)
          else Ok x
        else Ok x) x) x) x.

Definition spic0_csr (n : nat) (Lp Li : list nat) (x : list V) : res (list V) :=
  for_ 0 n (spic0_csr_row Lp Li) x.

End Serial.

(** ** Operations of one column *)

(** S1: Lx[d] = Lx[d] / sqrt(Lx[d]);  S2: Lx[m] = Lx[m] / Lx[d];
    S3: Lx[k] -= Lx[m] * Lx[l], atomically *)
Inductive icop := ORoot (d : nat) | ODiv (m d : nat) | OUpd (k m l : nat).

(** spic0.cpp 69-89 (brk = true; also 108-128 and 179-200) and 249-267 (brk = false: no
    break in the innermost loop): the operations of column [i] in order.  Which
    operations are performed depends on the index arrays only. *)
Definition col_ops (brk : bool) (Lp Li : list nat) (i : nat) : res (list icop) :=
  a <- rd Lp i ;; e <- rd Lp (S i) ;;
  divs <- for_ (S a) e (fun m acc => Ok (acc ++ [ODiv m a])) [] ;;
  us <- for_ (S a) e (fun m acc =>
    c <- rd Li m ;; b <- rd Lp c ;; f <- rd Lp (S c) ;;
    for_ b f (fun k acc =>
      forb_ m e (fun l acc =>
        rl <- rd Li l ;; rk <- rd Li k ;;
        if rl =? rk then Ok (false, acc ++ [OUpd k m l])
        else Ok (brk && (rk <? rl), acc)) acc) acc) [] ;;
  Ok (ORoot a :: divs ++ us).

(** the operations of a list of columns, of the threads of a level, of all levels *)
Definition cols_ops (brk : bool) (Lp Li : list nat) (cols : list nat) : res (list icop) :=
  foreach cols (fun i acc => o <- col_ops brk Lp Li i ;; Ok (acc ++ o)) [].
Definition level_ops (brk : bool) (Lp Li : list nat) (L : list (list nat)) : res (list (list icop)) :=
  foreach L (fun cols acc => o <- cols_ops brk Lp Li cols ;; Ok (acc ++ [o])) [].
Definition ic_prog (brk : bool) (Lp Li : list nat) (P : prog) : res (list (list (list icop))) :=
  foreach P (fun L acc => o <- level_ops brk Lp Li L ;; Ok (acc ++ [o])) [].

(** spic0.cpp 59-93: spico_csc_levelset *)
Definition ic_levelset (Lp Li : list nat) (levels : nat) (levelPtr levelSet : list nat) :=
  P <- levelset_prog levels levelPtr levelSet ;; ic_prog true Lp Li P.
(** spic0.cpp 95-133: spico_csc_group_levelset *)
Definition ic_group_levelset (Lp Li : list nat) (levels : nat) (levelPtr levelSet groupPtr groupSet : list nat) :=
  P <- group_levelset_prog levels levelPtr levelSet groupPtr groupSet ;; ic_prog true Lp Li P.
(** spic0.cpp 165-206: spic0_csc_group_lbc *)
Definition ic_group_lbc (Lp Li : list nat) (level_no : nat) (level_ptr par_ptr partition groupPtr groupSet : list nat) :=
  P <- group_lbc_prog level_no level_ptr par_ptr partition groupPtr groupSet ;; ic_prog true Lp Li P.
(** spic0.cpp 238-272: spico_csc_lbc *)
Definition ic_lbc (Lp Li : list nat) (level_no : nat) (level_ptr par_ptr partition : list nat) :=
  P <- lbc_prog level_no level_ptr par_ptr partition ;; ic_prog false Lp Li P.

(** ** Machine *)
Section Machine.
Context {V : Type}.
Variables (fms : V -> V -> V -> V) (quo : V -> V -> V) (root : V -> V).

(** inside an operation: nothing read yet, one operand read, both operands read *)
Inductive ipc := IStart | IOne (u : V) | ITwo (u w : V).

(** first and second element an operation reads, and the element it changes *)
Definition src1 (o : icop) : nat := match o with ORoot d => d | ODiv m _ => m | OUpd _ m _ => m end.
Definition src2 (o : icop) : nat := match o with ORoot d => d | ODiv _ d => d | OUpd _ _ l => l end.
Definition tgt (o : icop) : nat := match o with ORoot d => d | ODiv m _ => m | OUpd k _ _ => k end.

Definition op_step (o : icop) (pc : ipc) (x : list V) : res (option ipc * list V) :=
  match pc with
  | IStart => u <- rd x (src1 o) ;; Ok (Some (IOne u), x)
  | IOne u => w <- rd x (src2 o) ;; Ok (Some (ITwo u w), x)
  | ITwo u w =>
      x' <- match o with
            | ORoot d => wr x d (quo w (root u))
            | ODiv m d => wr x m (quo u w)
            | OUpd k m l => v <- rd x k ;; wr x k (fms v u w)
            end ;;
      Ok (None, x')
  end.

(** a thread: position in its list of operations, point inside that operation *)
Definition ist : Type := nat * ipc.
Definition iprog := list (list (list icop)).
Definition istate : Type := nat * list ist * list V.

Definition ithread_step (ops : list icop) (t : ist) (x : list V) : res (ist * list V) :=
  let '(q, pc) := t in
  o <- rd ops q ;;
  '(pc', x') <- op_step o pc x ;;
  Ok (match pc' with Some p => (q, p) | None => (S q, IStart) end, x').

Definition ithread_done (ops : list icop) (t : ist) : Prop := fst t = length ops.
Definition ienter (P : iprog) (l : nat) : list ist := repeat (0, IStart) (length P.[l]).

Inductive i_step (P : iprog) : istate -> istate -> Prop :=
| is_thread l ths x t th th' x' :
    l < length P -> nth_error ths t = Some th -> ~ ithread_done P.[l].[t] th ->
    ithread_step P.[l].[t] th x = Ok (th', x') ->
    i_step P (l, ths, x) (l, upd ths t th', x')
| is_barrier l ths x :
    l < length P -> (forall t th, nth_error ths t = Some th -> ithread_done P.[l].[t] th) ->
    i_step P (l, ths, x) (S l, ienter P (S l), x).

Inductive i_steps (P : iprog) : istate -> istate -> Prop :=
| iss_refl s : i_steps P s s
| iss_step s s' s'' : i_steps P s s' -> i_step P s' s'' -> i_steps P s s''.

Definition i_start (P : iprog) (x : list V) : istate := (0, ienter P 0, x).
Definition i_final (P : iprog) (s : istate) : Prop := fst (fst s) = length P.

(** some thread's next access fails *)
Definition i_bad (P : iprog) (s : istate) : Prop :=
  let '(l, ths, x) := s in
  l < length P /\ exists t th e, nth_error ths t = Some th /\ ~ ithread_done P.[l].[t] th /\
    ithread_step P.[l].[t] th x = Err e.

(** the access of a thread's next step *)
Inductive acc := ARead | AWrite | AAtomic.
Definition inext (ops : list icop) (t : ist) : option (acc * nat) :=
  match nth_error ops (fst t) with
  | None => None
  | Some o =>
      match snd t with
      | IStart => Some (ARead, src1 o)
      | IOne _ => Some (ARead, src2 o)
      | ITwo _ _ => Some (match o with OUpd _ _ _ => AAtomic | _ => AWrite end, tgt o)
      end
  end.

(** two threads' next steps touch the same element, at least one changes it, and they are
    not both atomic updates *)
Definition conflict (a b : acc) : Prop :=
  match a, b with ARead, ARead => False | AAtomic, AAtomic => False | _, _ => True end.
Definition i_race (P : iprog) (s : istate) : Prop :=
  let '(l, ths, x) := s in
  exists t t' th th' a a' c, t <> t' /\ nth_error ths t = Some th /\ nth_error ths t' = Some th' /\
    inext P.[l].[t] th = Some (a, c) /\ inext P.[l].[t'] th' = Some (a', c) /\ conflict a a'.

(** [x'] is the content of Lx after some complete execution *)
Definition i_exec (P : iprog) (x x' : list V) : Prop :=
  exists l ths, i_steps P (i_start P x) (l, ths, x') /\ l = length P.

End Machine.
Arguments ipc V : clear implicits.
Arguments ist V : clear implicits.
Arguments istate V : clear implicits.

(** ** Counting: executor.cpp 68-105 ic0_csc_stat, (flops, access_nnz, reuse_nnz) *)
Definition ic0_csc_stat (n : nat) (Lp Li : list nat) : res (nat * nat * nat) :=
  '(fl, me) <- for_ 0 n (fun i '(fl, me) =>
    a <- rd Lp i ;; e <- rd Lp (S i) ;;
    for_ (S a) e (fun m '(fl, me) =>
      c <- rd Li m ;; b <- rd Lp c ;; f <- rd Lp (S c) ;;
      for_ b f (fun k '(fl, me) =>
        for_ m e (fun l '(fl, me) =>
          rl <- rd Li l ;; rk <- rd Li k ;;
          if rl =? rk then Ok (fl + 2, S me + 3) else Ok (fl, S me)) (fl, me)) (fl, me))
      (fl + (e - a + 1), me + (e - a))) (0, 0) ;;
  Ok (fl, me, 0).

(** columns {0,1,2}, {1,2}, {2}: the full 3x3 lower triangle, 4 = 2*2, 2+.. *)
Example ic0_run :
  ic0_csc (fun a x y => (a - x * y)%Z) Z.div Z.sqrt 3 [0;3;5;6] [0;1;2;1;2;2] [4;2;6;10;9;14]%Z = Ok [2;1;3;3;2;1]%Z.
Proof. reflexivity. Qed.
