(** Models of the tree helpers: utils/sparse_utilities.cpp 155-161, 621-730,
    utils/lfactor_creation.cpp 17-93 and 363-375, utils/sparse_inspector.cpp 909-932.

    A tree (forest) is an array of parents; EMPTY is -1. *)
From Verif Require Import Base Lib.

(** * Child lists *)

(** utils/sparse_utilities.cpp 621-640.  [childPtr], [childNo] and [nChild] are the caller's
    arrays; result: their final contents. *)
Definition populate_children (n : nat) (eTree : list Z) (childPtr childNo nChild : list nat) : res (list nat * list nat * list nat) :=
  nChild <- for_ 0 n (fun k nChild =>
              p <- rd eTree k ;;
              if (0 <=? p)%Z then c <- rdZ nChild p ;; wrZ nChild p (S c) else Ok nChild) nChild ;;
  childPtr <- wr childPtr 0 0 ;;
  childPtr <- for_ 1 (n + 1) (fun k childPtr =>
              a <- rd childPtr (k - 1) ;; b <- rd nChild (k - 1) ;; wr childPtr k (a + b)) childPtr ;;
  r <- for_ 0 n (fun l '(childNo, childCnt) =>
         p <- rd eTree l ;;
         if (0 <=? p)%Z then
           a <- rdZ childPtr p ;; c <- rdZ childCnt p ;;
           childNo <- wr childNo (a + c) l ;;
           childCnt <- wrZ childCnt p (S c) ;;
           Ok (childNo, childCnt)
         else Ok (childNo, childCnt)) (childNo, repeat 0 n) ;;
  Ok (childPtr, fst r, nChild).

(** utils/sparse_utilities.cpp 155-161.  Result: the pointer array, the index array and the
    [nnz] field of the matrix (an [int] converted to [size_t]; -1 for n = 0). *)
Definition tree_to_csc (n : nat) (tree : list Z) : res (list nat * list nat * Z) :=
  r <- populate_children n tree (repeat 0 (n + 1)) (repeat 0 n) (repeat 0 n) ;;
  Ok (fst (fst r), snd (fst r), Z.of_nat n - 1)%Z.

(** * Depths and heights *)

(** utils/sparse_utilities.cpp 643-655.  [weight] is [None] for the null pointer; the weights
    are ints, modelled as non-negative.  The loop
    climbs at most [n] edges in a forest; the fuel is [n + 1]. *)
Definition get_node_depth (n : nat) (tree : list Z) (weight : option (list nat)) (node : nat) : res nat :=
  level <- match weight with None => Ok 0 | Some w => rd w node end ;;
  r <- while_ (S n)
         (fun '(node, level) => t <- rd tree node ;; Ok (0 <=? t)%Z)
         (fun '(node, level) =>
            t <- rd tree node ;;
            let node := Z.to_nat t in
            d <- match weight with None => Ok 1 | Some w => rd w node end ;;
            Ok (node, level + d))
         (node, level) ;;
  Ok (snd r).

(** utils/sparse_utilities.cpp 658-666 *)
Definition get_tree_height_bruteforce (n : nat) (tree : list Z) (weight : option (list nat)) : res nat :=
  for_ 0 n (fun i maxLen => l <- get_node_depth n tree weight i ;; Ok (if maxLen <? l then l else maxLen)) 0.

(** utils/sparse_utilities.cpp 669-679 *)
Definition get_tree_height (n : nat) (tree : list Z) (nChild : list nat) (weight : option (list nat)) : res nat :=
  for_ 0 n (fun i maxLen =>
    c <- rd nChild i ;;
    if c =? 0 then l <- get_node_depth n tree weight i ;; Ok (if maxLen <? l then l else maxLen)
    else Ok maxLen) 0.

(** utils/sparse_utilities.cpp 712-735; the inner loop's boolean is true after the [break] *)
Definition get_tree_height_efficient (n : nat) (tree : list Z) (nChild : list nat) (weight : option (list nat)) : res nat :=
  r <- for_ 0 n (fun i '(maxLen, touch) =>
    c <- rd nChild i ;;
    if c =? 0 then
      q <- while_ (S n)
        (fun '(stop, node, level, touch) => t <- rd tree node ;; Ok (negb stop && (0 <=? t)%Z))
        (fun '(_, node, level, touch) =>
           t <- rd tree node ;;
           let node := Z.to_nat t in
           d <- match weight with None => Ok 1 | Some w => rd w node end ;;
           let level := level + d in
           o <- rd touch node ;;
           if level <? o then Ok (true, node, level, touch)
           else touch <- wr touch node level ;; Ok (false, node, level, touch))
        (false, i, 0, touch) ;;
      let '(_, _, level, touch) := q in
      Ok (if maxLen <? level then level else maxLen, touch)
    else Ok (maxLen, touch)) (0, repeat 0 n) ;;
  Ok (fst r).

(** utils/sparse_utilities.cpp 682-695; costs are doubles holding whole numbers *)
Definition compute_subtree_cost (n : nat) (tree : list Z) (weight : list nat) : res (list nat) :=
  cost <- for_ 0 n (fun i cost => w <- rd weight i ;; wr cost i w) (repeat 0 n) ;;
  for_ 0 n (fun i cost =>
    par <- rd tree i ;;
    if (0 <? par)%Z then a <- rdZ cost par ;; b <- rd cost i ;; wrZ cost par (a + b) else Ok cost) cost.

(** * Post-ordering *)

Definition EMPTY : Z := (-1)%Z.

(** utils/sparse_inspector.cpp 909-932.  The stack Pstack[0..phead] is a list with its top first;
    [psize] is the size of Pstack: pushing a node beyond it is out of bounds.  The fuel covers
    one pop and one push per node. *)
Definition dfs_tree (fuel psize : nat) (Next : list Z) (p : nat) (st : nat * list nat * list Z) : res (nat * list nat * list Z) :=
  let '(k, Post, Head) := st in
  if psize =? 0 then Err OOB else
  r <- while_ fuel
    (fun '(stk, k, Post, Head) => Ok (match stk with [] => false | _ => true end))
    (fun '(stk, k, Post, Head) =>
       match stk with
       | [] => Err OOB
       | p :: rest =>
           j <- rd Head p ;;
           if (j =? EMPTY)%Z then Post <- wr Post k p ;; Ok (rest, S k, Post, Head)
           else x <- rdZ Next j ;; Head <- wr Head p x ;;
                if length stk <? psize then Ok (Z.to_nat j :: stk, k, Post, Head) else Err OOB
       end)
    ([p], k, Post, Head) ;;
  let '(_, k, Post, Head) := r in Ok (k, Post, Head).

(** 31-43: the lists of children in index order; [j] runs downwards from n-1 to 0 *)
Definition link_plain (n : nat) (Parent : list Z) (st : list Z * list Z) : res (list Z * list Z) :=
  for_ 0 n (fun j' '(Head, Next) =>
    let j := n - 1 - j' in
    p <- rd Parent j ;;
    if ((0 <=? p) && (p <? Z.of_nat n))%Z then
      h <- rdZ Head p ;; Next <- wr Next j h ;; Head <- wrZ Head p (Z.of_nat j) ;; Ok (Head, Next)
    else Ok (Head, Next)) st.

(** 55-65: the buckets by weight, clipped to 0..n-1 *)
Definition link_buckets (n : nat) (Parent Weight : list Z) (st : list Z * list Z) : res (list Z * list Z) :=
  for_ 0 n (fun j '(Whead, Next) =>
    p <- rd Parent j ;;
    if ((0 <=? p) && (p <? Z.of_nat n))%Z then
      w <- rd Weight j ;;
      let w := Z.max 0 w in
      let w := Z.min w (Z.of_nat n - 1) in
      h <- rdZ Whead w ;; Next <- wr Next j h ;; Whead <- wrZ Whead w (Z.of_nat j) ;; Ok (Whead, Next)
    else Ok (Whead, Next)) st.

(** 67-77: every bucket, heaviest first, is emptied into the lists of children *)
Definition link_weighted (n : nat) (Parent Whead : list Z) (st : list Z * list Z) : res (list Z * list Z) :=
  for_ 0 n (fun w' '(Head, Next) =>
    let w := n - 1 - w' in
    j <- rd Whead w ;;
    r <- while_ (S n)
      (fun '(j, Head, Next) => Ok (negb (j =? EMPTY)%Z))
      (fun '(j, Head, Next) =>
         nextj <- rdZ Next j ;;
         p <- rdZ Parent j ;;
         if ((0 <=? p) && (p <? Z.of_nat n))%Z then
           h <- rdZ Head p ;; Next <- wrZ Next j h ;; Head <- wrZ Head p j ;; Ok (nextj, Head, Next)
         else Err Throw)
      (j, Head, Next) ;;
    let '(_, Head, Next) := r in Ok (Head, Next)) st.

(** utils/lfactor_creation.cpp 17-93.  [Weight] is [None] for NULL.  The workspace of 3n+1
    integers is modelled as the three disjoint arrays Head (n+1), Next (n) and Pstack (n; Whead
    while the lists are built).  The [assert] of line 22 is [Err Throw].  Result: the returned
    count and the contents of Post. *)
Definition tree_post_order (Parent : list Z) (n : nat) (Weight : option (list Z)) (Post : list nat) : res (nat * list nat) :=
  if n =? 0 then Err Throw else
  let Head := repeat EMPTY (n + 1) in
  let Next := repeat 0%Z n in
  lists <- match Weight with
           | None => link_plain n Parent (Head, Next)
           | Some Weight =>
               b <- link_buckets n Parent Weight (repeat EMPTY n, Next) ;;
               link_weighted n Parent (fst b) (Head, snd b)
           end ;;
  let '(Head, Next) := lists in
  r <- for_ 0 n (fun j st =>
         p <- rd Parent j ;;
         if (p =? EMPTY)%Z then dfs_tree (2 * n + 1) n Next j st else Ok st) (0, Post, Head) ;;
  let '(k, Post, _) := r in Ok (k, Post).

(** utils/lfactor_creation.cpp 363-375 *)
Definition reorder_tree (n : nat) (parent : list Z) (Post : list nat) (ipost : list nat) (Wi : list Z) : res (list Z) :=
  Wi <- for_ 0 n (fun newchild Wi =>
          oldchild <- rd Post newchild ;;
          oldparent <- rd parent oldchild ;;
          newparent <- (if (oldparent =? EMPTY)%Z then Ok EMPTY else x <- rdZ ipost oldparent ;; Ok (Z.of_nat x)) ;;
          wr Wi newchild newparent) Wi ;;
  for_ 0 n (fun k parent => x <- rd Wi k ;; wr parent k x) parent.
