(** Models of the grouping routines with out-of-bounds accesses: class group's version 2
    inspectors (src/group.cpp) and CollectionGrouping::startCNGrouping (src/Group/Group.cpp).
    -1 is [None], as in M_Runs. *)
From Verif Require Import Base Lib Lib3 M_LevelSet M_SpTRSV M_Sched M_Runs.

(** group.cpp 200-214: a row of length one is marked; child[t] is the first row whose last entry but one is t *)
Definition v2_children (n : nat) (mP mI : list nat) : res (list bool * list (option nat)) :=
  for_ 0 n (fun i '(rc, ch) =>
    a <- rd mP i ;; b <- rd mP (S i) ;;
    rc <- (if b - a =? 1 then wr rc i true else Ok rc) ;;
    if 1 <? b - a then
      t <- rd mI (b - 2) ;;
      c <- rd ch t ;;
      match c with None => ch <- wr ch t (Some i) ;; Ok (rc, ch) | Some _ => Ok (rc, ch) end
    else Ok (rc, ch)) (repeat false n, repeat None n).

(** group.cpp 224: (chIdx-curIdx==1 || rCnt[chIdx]) && !visited[chIdx].  With chIdx = -1 the
    first test fails (curIdx >= 0) and rCnt[-1] is read. *)
Definition v2_cond (rc vis : list bool) (cur : nat) (ch : option nat) : res bool :=
  match ch with
  | None => Err OOB
  | Some c =>
      ok <- (if (Z.of_nat c - Z.of_nat cur =? 1)%Z then Ok true else rd rc c) ;;
      if ok : bool then v <- rd vis c ;; Ok (negb v) else Ok false
  end.

(** group.cpp 216-235; [pre] is written but never read and left out except for the bounds check *)
Definition v2_link (n : nat) (rc : list bool) (child : list (option nat)) : res (list bool * list nat) :=
  for_ 0 n (fun i '(vis, next) =>
    seen <- rd vis i ;;
    if seen : bool then Ok (vis, next) else
    vis <- wr vis i true ;;
    ch <- rd child i ;;
    '(vis, next, _, _) <- while_ (S n)
      (fun '(vis, next, cur, ch) => v2_cond rc vis cur ch)
      (fun '(vis, next, cur, ch) =>
         match ch with
         | None => Err OOB
         | Some c =>
             vis <- wr vis c true ;;
             _ <- rd next c ;;
             next <- wr next cur c ;;
             ch' <- rd child c ;;
             Ok (vis, next, c, ch')
         end)
      (vis, next, i, ch) ;;
    Ok (vis, next)) (repeat false n, repeat 0 n).

(** group.cpp 199-266 inspection_sptrsvcsr_v2 *)
Definition inspection_sptrsvcsr_v2 (n : nat) (mP mI groupPtr groupSet groupInv : list nat) :=
  '(rc, child) <- v2_children n mP mI ;;
  '(_, next) <- v2_link n rc child ;;
  emit_groups n next groupPtr groupSet groupInv.

(** src/Group/Group.cpp 579-593: runs of nodes whose first child is the next node.  The vectors
    are those of the constructor (555-568): n, n+1 and n zeros. *)
Definition cn_groups (n : nat) (nodes edges : list nat) : res (list nat * list nat * list nat * nat) :=
  for_ 0 n (fun node '(gset, gptr, inv, g) =>
    gset <- wr gset node node ;;
    a <- rd nodes node ;; b <- rd nodes (S node) ;;
    c <- (if 1 <? b - a then x <- rd edges (S a) ;; Ok (Some x) else Ok None) ;;
    inv <- wr inv node g ;;
    let continues := match c with Some x => (Z.of_nat x - Z.of_nat node =? 1)%Z | None => false end in
    if continues then
      k <- rd gptr (S g) ;; gptr <- wr gptr (S g) (S k) ;; Ok (gset, gptr, inv, g)
    else
      k <- rd gptr (S g) ;; p <- rd gptr g ;; gptr <- wr gptr (S g) (S (k + p)) ;; Ok (gset, gptr, inv, S g))
    (repeat 0 n, repeat 0 (S n), repeat 0 n, 0).

(** src/Group/Group.cpp 598-617: the compressed graph.  The children of a group are a set, sorted. *)
Definition cn_graph (n nnz : nat) (nodes edges gset gptr inv : list nat) (ng : nat) : res (list nat * list nat) :=
  for_ 0 ng (fun g '(cn, ce) =>
    p <- rd gptr g ;; gb <- rd gset p ;;
    q <- rd gptr (S g) ;; ge <- rd gset q ;;
    a <- rd nodes gb ;; b <- rd nodes ge ;;
    kids <- for_ a b (fun k kids => x <- rd edges k ;; if ge <=? x then y <- rd inv x ;; Ok (y :: kids) else Ok kids) [] ;;
    let kids := uniq (isort (g :: kids)) in
    s <- rd cn g ;;
    cn <- wr cn (S g) (s + length kids) ;;
    '(ce, _) <- foreach kids (fun x '(ce, k) => ce <- wr ce k x ;; Ok (ce, S k)) (ce, s) ;;
    Ok (cn, ce)) (repeat 0 (S n), repeat 0 nnz).

(** src/Group/Group.cpp 571-626 startCNGrouping (first call on the object) *)
Definition startCNGrouping (n : nat) (nodes edges : list nat) :=
  nnz <- rd nodes n ;;
  '(gset, gptr, inv, ng) <- cn_groups n nodes edges ;;
  '(cn, ce) <- cn_graph n nnz nodes edges gset gptr inv ng ;;
  m <- rd cn ng ;;
  Ok (ng, (firstn (S ng) gptr, gset, inv), (firstn (S ng) cn, firstn m ce)).

(** group.cpp 55-150 inspection_spicocsc_v2.  [status[curIdx]==2;] in the code is a comparison
    without effect, so it is left out. *)
Definition inspection_spicocsc_v2 (n : nat) (mP mI groupPtr groupSet groupInv : list nat) :=
  child <- for_ 0 n (fun i child =>
    a <- rd mP i ;; b <- rd mP (S i) ;;
    if 1 <? b - a then c <- rd mI (S a) ;; wr child i (Some c) else wr child i None) (repeat None n) ;;
  '(_, next, _, _) <- for_ 0 n (fun i '(vis, next, pre, st) =>
    c <- rd child i ;;
    seen <- rd vis i ;;
    match c, seen : bool with
    | Some ch, false =>
        vis <- wr vis i true ;;
        sc <- rd st i ;; sh <- rd st ch ;;
        if (sc =? 0) && (sh =? 0) then
          next <- wr next i ch ;; pre <- wr pre ch i ;; st <- wr st ch 1 ;;
          vis <- wr vis ch true ;; c2 <- rd child ch ;;
          '(vis, next, pre, st, cur, _) <- while_ (S n)
            (fun '(vis, next, pre, st, cur, c) => match c with
               | Some x => if (Z.of_nat x - Z.of_nat cur =? 1)%Z then v <- rd vis x ;; Ok (negb v) else Ok false
               | None => Ok false end)
            (fun '(vis, next, pre, st, cur, c) => match c with
               | Some x => vis <- wr vis x true ;; pre <- wr pre x cur ;; next <- wr next cur x ;; st <- wr st x 3 ;;
                           c' <- rd child x ;; Ok (vis, next, pre, st, x, c')
               | None => Err OOB end)
            (vis, next, pre, st, ch, c2) ;;
          '(vis, next, pre, st, _, _) <- while_ (S n)
            (fun '(vis, next, pre, st, t, len) => c <- rd child t ;; match c with
               | None => v <- rd vis t ;; Ok (negb v && (len <? n / 12))
               | Some _ => Ok false end)
            (fun '(vis, next, pre, st, t, len) =>
               vis <- wr vis t true ;; next <- wr next (t - 1) t ;; pre <- wr pre t (t - 1) ;; st <- wr st t 3 ;; Ok (vis, next, pre, st, S t, S len))
            (vis, next, pre, st, S cur, 0) ;;
          Ok (vis, next, pre, st)
        else if ((sh =? 1) || (sh =? 3)) && (sc =? 0) then
          vis <- wr vis ch true ;; next <- wr next i ch ;; tp <- rd pre ch ;;
          pre <- wr pre ch i ;; pre <- wr pre i tp ;; next <- wr next tp i ;;
          Ok (vis, next, pre, st)
        else Ok (vis, next, pre, st)
    | _, _ => Ok (vis, next, pre, st)
    end) (repeat false n, repeat 0 n, repeat 0 n, repeat 0 n) ;;
  emit_groups n next groupPtr groupSet groupInv.
