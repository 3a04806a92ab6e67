(** Models of the size arithmetic and the partitioning helpers of utils/utils.cpp 30-163. *)
From Verif Require Import Base Lib.

(** * Size arithmetic *)

(** [size_t] has 64 bits; arithmetic is modulo [W] *)
Definition W : Z := (2 ^ 64)%Z.

(** utils/utils.cpp 35-46.  The [while] of mult_size_t; 64 halvings reach [k = 0], so the
    fuel of 65 given below is never used up for a 64-bit [k]. *)
Fixpoint mult_loop (fuel : nat) (a k p : Z) (ok : bool) : res (Z * bool) :=
  match fuel with
  | 0 => Err Fuel
  | S f =>
      if ok then
        let '(p, ok) := if Z.odd k then let p := ((p + a) mod W)%Z in (p, ok && (a <=? p)%Z) else (p, ok) in
        let k := (k / 2)%Z in
        if (k =? 0)%Z then Ok (p, ok)
        else let s := ((a + a) mod W)%Z in mult_loop f s k p (ok && (a <=? s)%Z)
      else Ok (0%Z, false)
  end.

(** utils/utils.cpp 33-47.  The result and the final [*ok]. *)
Definition mult_size_t (a k : Z) (ok : bool) : res (Z * bool) := mult_loop 65 a k 0%Z ok.

(** utils/utils.cpp 50-54 *)
Definition add_size_t (a b : Z) (ok : bool) : Z * bool :=
  let s := ((a + b) mod W)%Z in
  let ok := ok && (a <=? s)%Z in
  (if ok then s else 0%Z, ok).

(** * Partitioning by weight *)

Section Weights.
(** The weights are doubles.  The type, its addition and its [<] are parameters, so that the
    theorems hold for every rounding (and for NaNs). *)
Context {T : Type} `{DT : Dflt T}.
Variables (zero : T) (add : T -> T -> T) (ltb : T -> T -> bool).

(** utils/utils.cpp 57-82; [ew] is the array [even_weight] (the targets given by the caller or
    n_parts copies of the even share). *)
Definition partition_by_weight (n : nat) (set : list nat) (weight : list T) (n_parts : nat) (ew : list T) : res (list nat) :=
  r <- for_ 0 n_parts (fun i '(indices, j) =>
         st <- while_ (S n)
                 (fun '(c, j) => e <- rd ew i ;; Ok (ltb c e && (j <? n)))
                 (fun '(c, j) => cn <- rd set j ;; w <- rd weight cn ;; Ok (add c w, S j))
                 (zero, j) ;;
         indices <- wr indices (S i) (snd st) ;;
         Ok (indices, snd st))
       (repeat 0 (S n_parts), 0) ;;
  Ok (fst r).

(** * Partitioning by breadth first search *)

(** utils/utils.cpp 113-118: the first unvisited node; [n] stands for the initial -1 *)
Definition first_unvisited (n : nat) (vis : list bool) : res nat :=
  forb_ 0 n (fun k r => b <- rd vis k ;; if (b : bool) then Ok (false, r) else Ok (true, k)) n.

(** local variables of partition_by_bfs: is_visited, visited_nodes, stack, set_temp *)
Record bst := mkB { b_vis : list bool; b_cnt : nat; b_stk : list nat; b_set : list (list nat) }.

(** utils/utils.cpp 127-133 *)
Definition bfs_expand (dp di : list nat) (cn : nat) (stk : list nat) (vis : list bool) : res (list nat * list bool) :=
  a <- rd dp cn ;; b <- rd dp (S cn) ;;
  for_ a b (fun k '(stk, vis) =>
    c <- rd di k ;; v <- rd vis c ;;
    if (v : bool) then Ok (stk, vis) else vis <- wr vis c true ;; Ok (stk ++ [c], vis)) (stk, vis).

(** utils/utils.cpp 124-136: the inner [while]; the boolean is true after the [break] *)
Definition bfs_inner (n : nat) (dp di : list nat) (weight : list T) (i : nat) (e : T) (s : bst) (c : T) : res (bool * bst * T) :=
  while_ (S n)
    (fun '(stop, s, _) => Ok (negb stop && match b_stk s with [] => false | _ => true end))
    (fun '(_, s, c) =>
       match b_stk s with
       | [] => Err OOB
       | cn :: stk =>
           w <- rd weight cn ;;
           let c := add c w in
           l <- rd (b_set s) i ;; set <- wr (b_set s) i (l ++ [cn]) ;;
           r <- bfs_expand dp di cn stk (b_vis s) ;;
           Ok (negb (ltb c e), mkB (snd r) (S (b_cnt s)) (fst r) set, c)
       end)
    (false, s, c).

(** utils/utils.cpp 110-137: the outer [while] of one part; the boolean is true after the
    [break] of line 119 *)
Definition bfs_part (n : nat) (dp di : list nat) (weight ew : list T) (i : nat) (s : bst) : res bst :=
  e <- rd ew i ;;
  r <- while_ (S n)
    (fun '(stop, s, c) => Ok (negb stop && ltb c e && (b_cnt s <? n)))
    (fun '(_, s, c) =>
       match b_stk s with
       | [] =>
           k <- first_unvisited n (b_vis s) ;;
           if k =? n then Ok (true, s, c)
           else vis <- wr (b_vis s) k true ;;
                r <- bfs_inner n dp di weight i e (mkB vis (b_cnt s) [k] (b_set s)) c ;;
                Ok (false, snd (fst r), snd r)
       | _ => r <- bfs_inner n dp di weight i e s c ;; Ok (false, snd (fst r), snd r)
       end)
    (false, s, zero) ;;
  Ok (snd (fst r)).

(** utils/utils.cpp 85-163.  Result: fina_level_ptr, final_part_ptr, final_node_ptr.  A failing
    [assert] (108 and 154) is [Err Throw].  Line 134 tests [c_wgt >= even_weight], modelled as
    the negation of [<] (they differ only for NaNs). *)
Definition partition_by_bfs (n : nat) (dp di : list nat) (weight : list T) (part_no : nat) (ew : list T)
  : res (list nat * list nat * list nat) :=
  s <- forb_ 0 part_no (fun i s =>
         if b_cnt s <? n then
           (if length (b_stk s) <? n then s <- bfs_part n dp di weight ew i s ;; Ok (false, s) else Err Throw)
         else Ok (true, s))
       (mkB (repeat false n) 0 [] (repeat [] part_no)) ;;
  (* 140-147: what remains goes to the last part *)
  set <- foreach (b_stk s) (fun v set => l <- rdZ set (Z.of_nat part_no - 1) ;; wrZ set (Z.of_nat part_no - 1) (l ++ [v])) (b_set s) ;;
  set <- for_ 0 n (fun k set => b <- rd (b_vis s) k ;;
           if (b : bool) then Ok set else l <- rdZ set (Z.of_nat part_no - 1) ;; wrZ set (Z.of_nat part_no - 1) (l ++ [k])) set ;;
  (* 149-159 *)
  r <- for_ 0 (length set) (fun l '(ptr, nodes) =>
         L <- rd set l ;; ip <- rd ptr l ;;
         ptr <- wr ptr (S l) (ip + length L) ;;
         q <- foreach L (fun v '(ip, nodes) => if ip <? n then nodes <- wr nodes ip v ;; Ok (S ip, nodes) else Err Throw) (ip, nodes) ;;
         Ok (ptr, snd q))
       (repeat 0 (S part_no), repeat 0 n) ;;
  Ok ([0; part_no], fst r, snd r).

End Weights.

(** utils/utils.cpp 65-66 for whole-number weights: n_parts copies of ceil(sum / n_parts) *)
Definition even_share (n : nat) (weight : list nat) (n_parts : nat) : list nat :=
  repeat ((sum_r 0 n (aget weight) + n_parts - 1) / n_parts) n_parts.
