(** Model of build_coarsened_level_parallel (src/hdagg/hdagg.cpp 2538-2582) and of
    lbc_config (src/lbc_csc_dag.cpp 16-29). *)
From Verif Require Import Base Lib M_LevelSet M_Sched.

(** lbc_csc_dag.cpp 16-29: (lp, cp, ic, b_pack); nnz / n is integer division *)
Definition lbc_config (n nnz num_threads : nat) : res (nat * nat * nat * bool) :=
  if n =? 0 then Err DivZero
  else
    let ratio := nnz / n in
    if ratio <? 10 then Ok (num_threads, 0, 0, false)
    else if ratio <? 100 then Ok (num_threads, 6, 6, false)
    else Ok (num_threads, 9, 9, false).

(** hdagg.cpp 2556-2563: the cut points; state: i, WM, whether the break was taken *)
Definition cut_points (cf n_levels : nat) : res (list nat) :=
  '(_, WM, _) <- while_ (S n_levels)
    (fun st : nat * list nat * bool => let '(i, _, brk) := st in Ok (negb brk && (i <? n_levels)))
    (fun st => let '(i, WM, _) := st in
       let WM1 := WM ++ [i] in
       let i' := i + cf in
       if n_levels <=? i' then Ok (i', WM1 ++ [n_levels], true) else Ok (i', WM1, false))
    (0, [], false) ;;
  Ok WM.

(** hdagg.cpp 2538-2582.  The coarse vectors of the caller are inputs: the fall-back path
    resizes coarse_part_ptr and coarse_node_ptr, keeping what they hold.  With no cut
    point the loop bound WM.size() - 1 of computeSchedule wraps around and WM[0] is read
    out of bounds. *)
Definition build_coarsened_level_parallel (junk n : nat) (Lp Li : list nat) (cores : nat)
    (coarse_part_ptr coarse_node_ptr : list nat) : res (Z * list nat * list nat * list nat) :=
  nnz <- rd Lp n ;;
  '(_, cf, _, bin_pack) <- lbc_config n nnz cores ;;
  if 0 <? cf then
    '(nl, (level_ptr, level_set, node_to_level)) <-
       build_levelSet_CSC n Lp Li (repeat 0 (n + 1)) (repeat 0 n) (repeat 0 n) ;;
    WM <- cut_points cf (Z.to_nat nl) ;;
    if length WM =? 0 then Err OOB
    else
      '(no, clp, cpp, cnp) <- computeSchedule n Lp Li level_ptr level_set node_to_level junk cores WM [[0]] bin_pack false ;;
      Ok (Z.of_nat no, clp, cpp, cnp)
  else
    '(nl, (cpp, cnp, _)) <- build_levelSet_CSC n Lp Li (resize coarse_part_ptr (n + 1)) (resize coarse_node_ptr n) (repeat 0 n) ;;
    Ok (nl, seq 0 (Z.to_nat (nl + 1)), cpp, cnp).

Example coarsen_run :
  build_coarsened_level_parallel 0 5 [0;2;4;6;8;9] [0;2;1;3;2;4;3;4;4] 4 [] []
    = Ok (3%Z, [0;1;2;3], [0;2;4;5;0;0], [0;1;2;3;4]).
Proof. vm_compute. reflexivity. Qed.
