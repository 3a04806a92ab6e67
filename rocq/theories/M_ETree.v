(** Models of the elimination tree code: src/hdagg/hdagg.cpp 1279-1347, utils/etree.cpp. *)
From Verif Require Import Base Lib.

(** std::vector<int>::resize(m) *)
Definition resizeZ (l : list Z) (m : nat) : list Z := firstn m l ++ repeat 0%Z (m - length l).

(** hdagg.cpp 1286-1295: climb from the entry [i] of row [k] along the ancestors.  The fuel
    covers n steps.  The [assert]s of 1288-1289 hold whenever the accesses are in bounds. *)
Definition climb (n k i : nat) (st : list Z * list Z) : res (list Z * list Z) :=
  r <- while_ (S (S n))
    (fun '(i, parents, ancestor) => Ok (negb (i =? -1) && (i <? Z.of_nat k))%Z)
    (fun '(i, parents, ancestor) =>
       inext <- rdZ ancestor i ;;
       ancestor <- wrZ ancestor i (Z.of_nat k) ;;
       parents <- (if (inext =? -1)%Z then wrZ parents i (Z.of_nat k) else Ok parents) ;;
       Ok (inext, parents, ancestor))
    (Z.of_nat i, fst st, snd st) ;;
  let '(_, parents, ancestor) := r in Ok (parents, ancestor).

(** hdagg.cpp 1279-1297.  [parents] holds the caller's vector on entry. *)
Definition computeParents (n : nat) (Ap Ai : list nat) (parents : list Z) : res (list Z) :=
  r <- for_ 0 n (fun k '(parents, ancestor) =>
         parents <- wr parents k (-1)%Z ;;
         ancestor <- wr ancestor k (-1)%Z ;;
         b <- rd Ap k ;; e <- rd Ap (S k) ;;
         for_ b e (fun p st => i <- rd Ai p ;; climb n k i st) (parents, ancestor))
       (resizeZ parents n, repeat 0%Z n) ;;
  Ok (fst r).

(** hdagg.cpp 1300-1325; result: nedges, tree_ptr, tree_set.  The [assert] of 1319 is an error. *)
Definition buildETree (n : nat) (Ap Ai : list nat) : res (nat * list nat * list nat) :=
  parents <- computeParents n Ap Ai [] ;;
  r <- for_ 0 n (fun i '(nedges, tree_ptr, tree_set) =>
         let tree_ptr := tree_ptr ++ [nedges] in
         let tree_set := tree_set ++ [i] in
         let nedges := S nedges in
         p <- rd parents i ;;
         if (p =? -1)%Z then Ok (nedges, tree_ptr, tree_set)
         else if (Z.of_nat i <? p)%Z then Ok (S nedges, tree_ptr, tree_set ++ [Z.to_nat p]) else Err Throw)
       (0, [], []) ;;
  let '(nedges, tree_ptr, tree_set) := r in
  Ok (nedges, tree_ptr ++ [nedges], tree_set).

(** utils/etree.cpp 9-36; the boolean is true after a [return].  EMPTY is -1. *)
Definition update_etree (fuel k i : nat) (st : list Z * list Z) : res (list Z * list Z) :=
  r <- while_ fuel
    (fun '(stop, k, Parent, Ancestor) => Ok (negb stop))
    (fun '(_, k, Parent, Ancestor) =>
       a <- rdZ Ancestor k ;;
       if (a =? Z.of_nat i)%Z then Ok (true, k, Parent, Ancestor) else
       Ancestor <- wrZ Ancestor k (Z.of_nat i) ;;
       if (a =? -1)%Z then Parent <- wrZ Parent k (Z.of_nat i) ;; Ok (true, k, Parent, Ancestor)
       else Ok (false, a, Parent, Ancestor))
    (false, Z.of_nat k, fst st, snd st) ;;
  let '(_, _, Parent, Ancestor) := r in Ok (Parent, Ancestor).

(** utils/etree.cpp 39-115.  [m] rows, [n] columns; result: the returned flag and Parent.
    The workspace has m + (stype ? 0 : n) integers; Ancestor is its first n, Prev what follows.
    It is modelled as two arrays: for stype = 0 of n and m integers, otherwise one of m.
    [add_size_t] cannot overflow on the sizes of a matrix that fits in memory; Iwork is leaked when
    the function returns false. *)
Definition compute_etree (m n : nat) (Ap Ai : list nat) (stype : Z) (Parent : list Z) : res (bool * list Z) :=
  let Iwork := repeat 0%Z (if (stype =? 0)%Z then n else m) in
  st <- for_ 0 n (fun j '(Parent, Ancestor) =>
          Parent <- wr Parent j (-1)%Z ;; Ancestor <- wr Ancestor j (-1)%Z ;; Ok (Parent, Ancestor)) (Parent, Iwork) ;;
  if (0 <? stype)%Z then
    st <- for_ 0 n (fun j st =>
            p <- rd Ap j ;; pend <- rd Ap (S j) ;;
            for_ p pend (fun p st => i <- rd Ai p ;; if i <? j then update_etree (S (S n)) i j st else Ok st) st) st ;;
    Ok (true, fst st)
  else if (stype =? 0)%Z then
    Prev <- for_ 0 m (fun i Prev => wr Prev i (-1)%Z) (repeat 0%Z m) ;;
    r <- for_ 0 n (fun j r =>
           p <- rd Ap j ;; pend <- rd Ap (S j) ;;
           for_ p pend (fun p '(st, Prev) =>
             i <- rd Ai p ;;
             jprev <- rd Prev i ;;
             st <- (if (jprev =? -1)%Z then Ok st else
                    if (jprev <? 0)%Z then Err OOB else update_etree (S (S n)) (Z.to_nat jprev) j st) ;;
             Prev <- wr Prev i (Z.of_nat j) ;;
             Ok (st, Prev)) r) (st, Prev) ;;
    Ok (true, fst (fst r))
  else Ok (false, fst st).

(** hdagg.cpp 1327-1347.  [s] has [n] integers, [w] is the caller's vector of marks; the stale
    contents of [s] are modelled as non-negative numbers of any size.  The [assert] of
    1330 (n <> 1) is compiled out in release builds and left out.  Result: top, s, w. *)
Definition computeNoneZeroPatternOfRowK (n : nat) (Ap Ai : list nat) (k : nat) (parent : list Z) (s : list nat) (w : list bool) : res (nat * list nat * list bool) :=
  if n =? 0 then Err OOB else
  w <- wr w k true ;;
  b <- rd Ap k ;; e <- rd Ap (S k) ;;
  r <- for_ b e (fun p '(top, s, w) =>
         i <- rd Ai p ;;
         r <- while_ (S n)
           (fun '(i, len, s, w) => x <- rdZ w i ;; Ok (negb x))
           (fun '(i, len, s, w) =>
              s <- wr s len (Z.to_nat i) ;;
              w <- wrZ w i true ;;
              i <- rdZ parent i ;;
              Ok (i, S len, s, w))
           (Z.of_nat i, 0, s, w) ;;
         let '(_, len, s, w) := r in
         r <- while_ (S n)
           (fun '(len, top, s) => Ok (0 <? len))
           (fun '(len, top, s) =>
              if top =? 0 then Err OOB else
              x <- rd s (len - 1) ;; s <- wr s (top - 1) x ;; Ok (len - 1, top - 1, s))
           (len, top, s) ;;
         let '(_, top, s) := r in Ok (top, s, w))
       (n - 1, s, w) ;;
  let '(top, s, w) := r in
  w <- for_ top n (fun p w => x <- rd s p ;; wr w x false) w ;;
  w <- wr w k false ;;
  s <- wr s (n - 1) k ;;
  Ok (top, s, w).
