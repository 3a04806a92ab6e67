(** Model of HDAGG::parallel_cc, src/hdagg/hdagg.cpp 266-312.

    Two readings of the same code:
    - [cc_step]: a small-step machine in which every loop iteration of an OpenMP
      parallel-for region is a thread of its own, every step performs at most
      one access to the shared arrays, and steps of different threads interleave
      arbitrarily; the end of each region is a barrier.  Any assignment of
      iterations to OpenMP threads is a subset of these interleavings.
      Sequential consistency of the racy int accesses is assumed.
    - [parallel_cc]: the single-threaded execution, as a function.

    [nodes] is the slice of the node list that the C++ receives as a pointer and a
    count (numNodes = length nodes). Read-only arrays are read without a step of
    their own. *)
From Verif Require Export Base.

Section CC.
Variables (lC lR : list nat) (lbLevel ubLevel : nat) (node2Level nodes : list nat).

(** ** Program points of one hooking iteration, hdagg.cpp 281-302.
    [HLoadU r]: about to test r < lC[u+1] and read node2partition[u] (284-291);
    [HLoadV r v cu]: about to read node2partition[v] (292);
    [HLoadH r hi lo]: about to read node2partition[nodes[high_comp]] (297);
    [HStoreC]: about to write change = true (298);
    [HStoreL]: about to write node2partition[nodes[high_comp]] = low_comp (299). *)
Inductive hpc :=
| HStart | HLoadU (r : nat) | HLoadV (r v cu : nat) | HLoadH (r hi lo : nat)
| HStoreC (r hi lo : nat) | HStoreL (r hi lo : nat) | HDone.

Definition hook_step (i : nat) (pc : hpc) (mem : list nat) (change : bool)
  : res (hpc * list nat * bool) :=
  match pc with
  | HStart => u <- rd nodes i ;; r <- rd lC u ;; Ok (HLoadU r, mem, change)
  | HLoadU r =>
      u <- rd nodes i ;; e <- rd lC (S u) ;;
      if e <=? r then Ok (HDone, mem, change)
      else
        v <- rd lR r ;;
        level <- rd node2Level v ;;
        if (level <? lbLevel) || (ubLevel <=? level) then Ok (HLoadU (S r), mem, change)
        else cu <- rd mem u ;; Ok (HLoadV r v cu, mem, change)
  | HLoadV r v cu =>
      cv <- rd mem v ;;
      if cu =? cv then Ok (HLoadU (S r), mem, change)
      else let hi := if cv <? cu then cu else cv in
           let lo := cu + cv - hi in
           Ok (HLoadH r hi lo, mem, change)
  | HLoadH r hi lo =>
      hn <- rd nodes hi ;; x <- rd mem hn ;;
      if hi =? x then Ok (HStoreC r hi lo, mem, change) else Ok (HLoadU (S r), mem, change)
  | HStoreC r hi lo => Ok (HStoreL r hi lo, mem, true)
  | HStoreL r hi lo => hn <- rd nodes hi ;; mem' <- wr mem hn lo ;; Ok (HLoadU (S r), mem', change)
  | HDone => Ok (HDone, mem, change)
  end.

(** ** Program points of one pointer-jumping iteration, hdagg.cpp 305-310.
    The condition reads node2partition[node] ([JA]), again ([JB]), and
    node2partition[nodes[.]] ([JC]); the assignment reads twice ([JD], [JE]) and
    writes ([JW]). *)
Inductive jpc := JA | JB (a : nat) | JC (a b : nat) | JD | JE (d : nat) | JW (e : nat) | JDone.

Definition jump_step (i : nat) (pc : jpc) (mem : list nat) : res (jpc * list nat) :=
  match pc with
  | JA => node <- rd nodes i ;; a <- rd mem node ;; Ok (JB a, mem)
  | JB a => node <- rd nodes i ;; b <- rd mem node ;; Ok (JC a b, mem)
  | JC a b => x <- rd nodes b ;; c <- rd mem x ;; Ok (if a =? c then JDone else JD, mem)
  | JD => node <- rd nodes i ;; d <- rd mem node ;; Ok (JE d, mem)
  | JE d => x <- rd nodes d ;; e <- rd mem x ;; Ok (JW e, mem)
  | JW e => node <- rd nodes i ;; mem' <- wr mem node e ;; Ok (JA, mem')
  | JDone => Ok (JDone, mem)
  end.

(** hdagg.cpp 272-275: one iteration of the star-creating loop *)
Definition star_step (i : nat) (mem : list nat) : res (list nat) :=
  node <- rd nodes i ;; wr mem node i.

(** ** The whole routine: 270-275 init, 280-302 hook, 304-310 jump *)
Inductive phase :=
| PInit (fl : list bool)
| PHook (pcs : list hpc) (change : bool)
| PJump (pcs : list jpc) (change : bool)
| PFin.

Definition cc_state : Type := phase * list nat.

Definition cc_start (mem : list nat) : cc_state := (PInit (repeat false (length nodes)), mem).

Inductive cc_step : cc_state -> cc_state -> Prop :=
| st_init i fl mem mem' :
    nth_error fl i = Some false -> star_step i mem = Ok mem' ->
    cc_step (PInit fl, mem) (PInit (upd fl i true), mem')
| st_init_end fl mem :
    (forall i b, nth_error fl i = Some b -> b = true) ->
    cc_step (PInit fl, mem) (PHook (repeat HStart (length nodes)) false, mem)
| st_hook i pcs ch mem pc pc' mem' ch' :
    nth_error pcs i = Some pc -> pc <> HDone ->
    hook_step i pc mem ch = Ok (pc', mem', ch') ->
    cc_step (PHook pcs ch, mem) (PHook (upd pcs i pc') ch', mem')
| st_hook_end pcs ch mem :
    (forall i pc, nth_error pcs i = Some pc -> pc = HDone) ->
    cc_step (PHook pcs ch, mem) (PJump (repeat JA (length nodes)) ch, mem)
| st_jump i pcs ch mem pc pc' mem' :
    nth_error pcs i = Some pc -> pc <> JDone ->
    jump_step i pc mem = Ok (pc', mem') ->
    cc_step (PJump pcs ch, mem) (PJump (upd pcs i pc') ch, mem')
| st_jump_again pcs mem :
    (forall i pc, nth_error pcs i = Some pc -> pc = JDone) ->
    cc_step (PJump pcs true, mem) (PHook (repeat HStart (length nodes)) false, mem)
| st_jump_fin pcs mem :
    (forall i pc, nth_error pcs i = Some pc -> pc = JDone) ->
    cc_step (PJump pcs false, mem) (PFin, mem).

(** some thread's next access is out of bounds *)
Definition cc_bad (s : cc_state) : Prop :=
  match s with
  | (PInit fl, mem) => exists i e, nth_error fl i = Some false /\ star_step i mem = Err e
  | (PHook pcs ch, mem) => exists i pc e, nth_error pcs i = Some pc /\ hook_step i pc mem ch = Err e
  | (PJump pcs ch, mem) => exists i pc e, nth_error pcs i = Some pc /\ jump_step i pc mem = Err e
  | (PFin, _) => False
  end.

Inductive cc_steps : cc_state -> cc_state -> Prop :=
| ccs_refl s : cc_steps s s
| ccs_step s s' s'' : cc_steps s s' -> cc_step s' s'' -> cc_steps s s''.

(** [mem'] is the content of node2partition after some complete execution *)
Definition cc_exec (mem mem' : list nat) : Prop := cc_steps (cc_start mem) (PFin, mem').

(** ** Single-threaded execution *)

(** hdagg.cpp 284-301: one neighbour *)
Definition hook_edge (u : nat) (r : nat) (st : list nat * bool) : res (list nat * bool) :=
  let '(mem, change) := st in
  v <- rd lR r ;;
  level <- rd node2Level v ;;
  if (level <? lbLevel) || (ubLevel <=? level) then Ok st
  else
    cu <- rd mem u ;;
    cv <- rd mem v ;;
    if cu =? cv then Ok st
    else
      let hi := if cv <? cu then cu else cv in
      let lo := cu + cv - hi in
      hn <- rd nodes hi ;; x <- rd mem hn ;;
      if hi =? x then hn <- rd nodes hi ;; mem' <- wr mem hn lo ;; Ok (mem', true)
      else Ok st.

(** hdagg.cpp 281-302 *)
Definition hook_loop (st : list nat * bool) : res (list nat * bool) :=
  for_ 0 (length nodes) (fun i st =>
    u <- rd nodes i ;; r0 <- rd lC u ;; r1 <- rd lC (S u) ;;
    for_ r0 r1 (hook_edge u) st) st.

(** hdagg.cpp 305-310 *)
Definition jump_loop (mem : list nat) : res (list nat) :=
  for_ 0 (length nodes) (fun i mem =>
    node <- rd nodes i ;;
    while_ (S (length nodes))
      (fun mem => a <- rd mem node ;; b <- rd mem node ;; x <- rd nodes b ;; c <- rd mem x ;;
                  Ok (negb (a =? c)))
      (fun mem => d <- rd mem node ;; x <- rd nodes d ;; e <- rd mem x ;; wr mem node e) mem) mem.

(** hdagg.cpp 276-311: hook and jump until nothing changes *)
Definition cc_iterate (mem : list nat) : res (list nat) :=
  r <- while_ (S (S (length nodes * length nodes)))
    (fun st : list nat * bool => Ok (snd st))
    (fun st => '(m, ch) <- hook_loop (fst st, false) ;; m' <- jump_loop m ;; Ok (m', ch))
    (mem, true) ;;
  Ok (fst r).

(** hdagg.cpp 266-312 *)
Definition parallel_cc (mem : list nat) : res (list nat) :=
  mem1 <- for_ 0 (length nodes) (fun i mem => star_step i mem) mem ;;
  cc_iterate mem1.

End CC.

(** two components {0,2,3} and {1,4} of a window of four levels *)
Example cc_run :
  parallel_cc [0;2;4;6;7;8] [0;3;1;4;2;3;3;4] 0 4 [0;0;0;1;1] [0;1;2;3;4] (repeat 9 5)
  = Ok [0;1;0;0;1].
Proof. vm_compute. reflexivity. Qed.
