(** Model of the parallel row-wise incomplete Cholesky kernels (example/old/spic0.cpp): spic0_csr_levelset and spic0_csr_lbc.

    As in M_IC0 every iteration of the [omp for] is a thread, every step is one access to Lx, steps of different threads interleave
    arbitrarily and the barrier ends each level.  There is no atomic update here: S3 reads three elements and then writes one. *)
From Verif Require Export Base M_SpTRSV.

(** S1: Lx[d] = sqrt(Lx[d]);  S2: Lx[m] = Lx[m] / Lx[d];  S3: Lx[k] -= Lx[m] * Lx[l] *)
Inductive rop := RRoot (d : nat) | RDiv (m d : nat) | RUpd (k m l : nat).
#[global] Instance Dflt_rop : Dflt rop := RRoot 0.

(** spic0.cpp 145-158, 219-232: the operations of row [i] in order; which are performed depends on the index arrays only.
    Lp[i+1] = 0 would index Lx at -1. *)
Definition row_ops (Lp Li : list nat) (i : nat) : res (list rop) :=
  e <- rd Lp (S i) ;;
  if e =? 0 then Err OOB else
  a <- rd Lp i ;;
  divs <- for_ a (e - 1) (fun m acc => Ok (acc ++ [RDiv m (e - 1)])) [] ;;
  us <- for_ a (e - 1) (fun m acc =>
    c <- rd Li m ;; b <- rd Lp c ;; f <- rd Lp (S c) ;;
    for_ b f (fun k acc =>
      for_ m (e - 1) (fun l acc =>
        rl <- rd Li l ;; rk <- rd Li k ;;
        if rl =? rk then rn <- rd Li (S l) ;; Ok (if rn <=? rk then acc ++ [RUpd k m l] else acc)
        else Ok acc) acc) acc) [] ;;
  Ok (RRoot (e - 1) :: divs ++ us).

(** the operations of the rows of a thread, of the threads of a level, of all levels *)
Definition rows_ops (Lp Li : list nat) (rows : list nat) : res (list rop) :=
  foreach rows (fun i acc => o <- row_ops Lp Li i ;; Ok (acc ++ o)) [].
Definition rlevel_ops (Lp Li : list nat) (L : list (list nat)) : res (list (list rop)) :=
  foreach L (fun rows acc => o <- rows_ops Lp Li rows ;; Ok (acc ++ [o])) [].
Definition row_prog (Lp Li : list nat) (P : prog) : res (list (list (list rop))) :=
  foreach P (fun L acc => o <- rlevel_ops Lp Li L ;; Ok (acc ++ [o])) [].

(** spic0.cpp 135-163 *)
Definition spic0_csr_levelset (Lp Li : list nat) (level_no : nat) (level_ptr level_set : list nat) :=
  P <- levelset_prog level_no level_ptr level_set ;; row_prog Lp Li P.
(** spic0.cpp 208-236 *)
Definition spic0_csr_lbc (Lp Li : list nat) (level_no : nat) (level_ptr par_ptr partition : list nat) :=
  P <- lbc_prog level_no level_ptr par_ptr partition ;; row_prog Lp Li P.

Section Machine.
Context {V : Type} {DV : Dflt V}.
Variables (fms : V -> V -> V -> V) (quo : V -> V -> V) (root : V -> V).

(** the elements an operation reads, in order, and the element it writes *)
Definition rsrc (o : rop) : list nat := match o with RRoot d => [d] | RDiv m d => [m; d] | RUpd k m l => [k; m; l] end.
Definition rtgt (o : rop) : nat := match o with RRoot d => d | RDiv m _ => m | RUpd k _ _ => k end.
(** the value written, from the values read *)
Definition rval (o : rop) (vs : list V) : V :=
  match o with RRoot _ => root vs.[0] | RDiv _ _ => quo vs.[0] vs.[1] | RUpd _ _ _ => fms vs.[0] vs.[1] vs.[2] end.

(** a thread: position in its list of operations, values read for that operation *)
Definition rst : Type := nat * list V.
Definition rprog := list (list (list rop)).
Definition rstate : Type := nat * list rst * list V.

Definition rthread_step (ops : list rop) (t : rst) (x : list V) : res (rst * list V) :=
  let '(q, vs) := t in
  o <- rd ops q ;;
  match nth_error (rsrc o) (length vs) with
  | Some c => v <- rd x c ;; Ok ((q, vs ++ [v]), x)
  | None => x' <- wr x (rtgt o) (rval o vs) ;; Ok ((S q, []), x')
  end.

Definition rthread_done (ops : list rop) (t : rst) : Prop := fst t = length ops.
Definition renter (P : rprog) (l : nat) : list rst := repeat (0, []) (length P.[l]).

Inductive r_step (P : rprog) : rstate -> rstate -> Prop :=
| rs_thread l ths x t th th' x' :
    l < length P -> nth_error ths t = Some th -> ~ rthread_done P.[l].[t] th ->
    rthread_step P.[l].[t] th x = Ok (th', x') ->
    r_step P (l, ths, x) (l, upd ths t th', x')
| rs_barrier l ths x :
    l < length P -> (forall t th, nth_error ths t = Some th -> rthread_done P.[l].[t] th) ->
    r_step P (l, ths, x) (S l, renter P (S l), x).

Inductive r_steps (P : rprog) : rstate -> rstate -> Prop :=
| rss_refl s : r_steps P s s
| rss_step s s' s'' : r_steps P s s' -> r_step P s' s'' -> r_steps P s s''.

Definition r_start (P : rprog) (x : list V) : rstate := (0, renter P 0, x).
Definition r_final (P : rprog) (s : rstate) : Prop := fst (fst s) = length P.

(** some thread's next access fails *)
Definition r_bad (P : rprog) (s : rstate) : Prop :=
  let '(l, ths, x) := s in
  l < length P /\ exists t th e, nth_error ths t = Some th /\ ~ rthread_done P.[l].[t] th /\ rthread_step P.[l].[t] th x = Err e.

(** the next access of a thread: whether it writes, and where *)
Definition rnext (ops : list rop) (t : rst) : option (bool * nat) :=
  match nth_error ops (fst t) with
  | None => None
  | Some o => match nth_error (rsrc o) (length (snd t)) with Some c => Some (false, c) | None => Some (true, rtgt o) end
  end.

(** two threads' next steps touch the same element and at least one writes it *)
Definition r_race (P : rprog) (s : rstate) : Prop :=
  let '(l, ths, x) := s in
  exists t t' th th' a a' c, t <> t' /\ nth_error ths t = Some th /\ nth_error ths t' = Some th' /\
    rnext P.[l].[t] th = Some (a, c) /\ rnext P.[l].[t'] th' = Some (a', c) /\ a || a' = true.

(** [x'] is the content of Lx after some complete execution *)
Definition r_exec (P : rprog) (x x' : list V) : Prop :=
  exists l ths, r_steps P (r_start P x) (l, ths, x') /\ l = length P.
End Machine.
Arguments rst V : clear implicits.
Arguments rstate V : clear implicits.
