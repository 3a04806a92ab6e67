(** Model of the symmetric transposition, the sum of two sparse matrices, make_symmetric
    (utils/sparse_utilities.cpp 273-475, 1070-1130) and get_coarse_levelSet_DAG_CSC_tree
    (src/lbc_csc.cpp 299-349). *)
From Verif Require Import Base Lib M_Mat M_Sched M_ETree M_LBCTree.

(** 303-314: check Perm and invert it; [None] is the return of a null pointer.  Pinv has n cells
    after those of Wi; cell n is one past the allocation. *)
Definition check_perm (n : nat) (Perm : list Z) : res (option (list Z)) :=
  Pinv <- for_ 0 n (fun i Pinv => wr Pinv i (-1)%Z) (repeat 0%Z n) ;;
  '(ok, Pinv) <- for_ 0 n (fun k '(ok, Pinv) =>
      if ok : bool then
        i <- rd Perm k ;;
        if (i <? 0)%Z || (Z.of_nat n <? i)%Z then Ok (false, Pinv)
        else v <- rdZ Pinv i ;;
             if negb (v =? -1)%Z then Ok (false, Pinv)
             else Pinv <- wrZ Pinv i (Z.of_nat k) ;; Ok (true, Pinv)
      else Ok (ok, Pinv)) (true, Pinv) ;;
  Ok (if ok then Some Pinv else None).

(** 328, 341, 355, 366, 397, 421, 446, 460: the entry is in the stored triangle *)
Definition in_tri (upper : bool) (i j : nat) : bool := if upper then i <=? j else j <=? i.

(** 324, 337: the column read for column [j] of the result; Perm has been checked, so its entries are
    not negative *)
Definition old_col (perm : option (list Z * list Z)) (j : nat) : res nat :=
  match perm with None => Ok j | Some (P, _) => x <- rd P j ;; Ok (Z.to_nat x) end.
(** 329, 342, 398, 422 *)
Definition new_row (perm : option (list Z * list Z)) (i : nat) : res nat :=
  match perm with None => Ok i | Some (_, Pinv) => x <- rd Pinv i ;; Ok (Z.to_nat x) end.

(** 320-372: count the entries of each column of the result, four cases *)
Definition sym_count (perm : option (list Z * list Z)) (upper : bool) (n : nat) (Ap Ai W : list nat) : res (list nat) :=
  for_ 0 n (fun j W =>
    jold <- old_col perm j ;; a <- rd Ap jold ;; b <- rd Ap (S jold) ;;
    for_ a b (fun p W =>
      iold <- rd Ai p ;;
      if in_tri upper iold jold then
        i <- new_row perm iold ;;
        let k := match perm with None => i | Some _ => if upper then Nat.min i j else Nat.max i j end in
        c <- rd W k ;; wr W k (c + 1)
      else Ok W) W) W.

Section Sym.
Context {V : Type} {DV : Dflt V}.

(** 388-470: one entry; the cursor of its column is in [W] *)
Definition sym_place (pat permute upper : bool) (v : res V) (i j : nat) (st : list nat * list nat * list V) :
    res (list nat * list nat * list V) :=
  let '(W, Fi, Fx) := st in
  let first := if permute then (if upper then i <? j else j <? i) else true in
  let k := if first then i else j in
  let r := if first then j else i in
  fp <- rd W k ;; W <- wr W k (fp + 1) ;; Fi <- wr Fi fp r ;;
  Fx <- (if pat then Ok Fx else v <- v ;; wr Fx fp v) ;;
  Ok (W, Fi, Fx).

Definition sym_fill (pat : bool) (perm : option (list Z * list Z)) (upper : bool) (n : nat) (Ap Ai : list nat) (Ax : list V)
    (st : list nat * list nat * list V) : res (list nat * list nat * list V) :=
  for_ 0 n (fun j st =>
    jold <- old_col perm j ;; a <- rd Ap jold ;; b <- rd Ap (S jold) ;;
    for_ a b (fun p st =>
      iold <- rd Ai p ;;
      if in_tri upper iold jold then
        i <- new_row perm iold ;;
        sym_place pat (match perm with None => false | Some _ => true end) upper (rd Ax p) i j st
      else Ok st) st) st.

(** 273-475: transpose_symmetric.  [Perm = None] is a null pointer; the result [None] too. *)
Definition transpose_symmetric (A : csc V) (Perm : option (list Z)) : res (option (csc V)) :=
  if (cst A =? 0)%Z || negb (cm A =? cn A) then Ok None
  else
    let n := cm A in
    let upper := (0 <? cst A)%Z in
    let F := new_csc (cn A) (cm A) (cnnz A) false in
    chk <- match Perm with
           | None => Ok (Some None)
           | Some P => r <- check_perm n P ;; Ok (match r with None => None | Some Pinv => Some (Some (P, Pinv)) end)
           end ;;
    match chk with
    | None => Ok None
    | Some perm =>
        W <- sym_count perm upper n (cp A) (ci A) (repeat 0 n) ;;
        '(Fp, p) <- for_ 0 n (fun i '(Fp, p) => Fp <- wr Fp i p ;; w <- rd W i ;; Ok (Fp, p + w)) (cp F, 0) ;;
        Fp <- wr Fp n p ;;
        W <- for_ 0 n (fun i W => x <- rd Fp i ;; wr W i x) W ;;
        if cnnz F <? p then Ok None
        else
          '(_, Fi, Fx) <- sym_fill (cpat A) perm upper n (cp A) (ci A) (cx A) (W, ci F, cx F) ;;
          Ok (Some (mkCSC (cm F) (cn F) (cnnz F) false (- cst A)%Z Fp Fi Fx))
    end.

(** double arithmetic *)
Variables (mul add : V -> V -> V).

(** 1070-1086: scatter; [novals] says that x is null *)
Definition scatter (novals : bool) (A : csc V) (j : nat) (beta : V) (mark : nat) (st : list nat * list V * list nat * nat) :
    res (list nat * list V * list nat * nat) :=
  a <- rd (cp A) j ;; b <- rd (cp A) (S j) ;;
  for_ a b (fun p '(w, x, Ci, nz) =>
    i <- rd (ci A) p ;; m <- rd w i ;;
    if m <? mark then
      w <- wr w i mark ;; Ci <- wr Ci nz i ;;
      x <- (if novals then Ok x else v <- rd (cx A) p ;; wr x i (mul beta v)) ;;
      Ok (w, x, Ci, nz + 1)
    else
      x <- (if novals then Ok x else v <- rd (cx A) p ;; y <- rd x i ;; wr x i (add y (mul beta v))) ;;
      Ok (w, x, Ci, nz)) st.

(** 1089-1114: add.  The flag is_pattern of the result is that of A (1101) although the values are
    absent as soon as one of the two matrices is a pattern. *)
Definition add_csc (A B : csc V) (alpha beta : V) (sort : bool) : res (option (csc V)) :=
  if negb (cst A =? cst B)%Z then Ok None
  else
    let novals := cpat A || cpat B in
    anz <- rd (cp A) (cn A) ;; bnz <- rd (cp B) (cn B) ;;
    let C := new_csc (cm A) (cn B) (anz + bnz) novals in
    '(Cp, w, x, Ci, Cx, nz) <- for_ 0 (cn B) (fun j '(Cp, w, x, Ci, Cx, nz) =>
        Cp <- wr Cp j nz ;;
        st <- scatter novals A j alpha (S j) (w, x, Ci, nz) ;;
        '(w, x, Ci, nz) <- scatter novals B j beta (S j) st ;;
        a <- rd Cp j ;;
        Ci <- (if sort then sort_range Ci a nz else Ok Ci) ;;
        Cx <- (if novals then Ok Cx else for_ a nz (fun p Cx => i <- rd Ci p ;; v <- rd x i ;; wr Cx p v) Cx) ;;
        Ok (Cp, w, x, Ci, Cx, nz)) (cp C, repeat 0 (cm A), (if novals then [] else repeat dflt (cm A)), ci C, cx C, 0) ;;
    Cp <- wr Cp (cn B) nz ;;
    Ok (Some (mkCSC (cm A) (cn B) (anz + bnz) (cpat A) (cst A) Cp Ci Cx)).

(** 1116-1130: make_symmetric.  The first component says that the result is [A] itself.  The null
    pointer that transpose_general returns for a matrix without rows is dereferenced in add. *)
Definition make_symmetric (half : V) (A : csc V) (lower : bool) : res (bool * option (csc V)) :=
  if ((0 <? cst A)%Z && negb lower) || ((cst A <? 0)%Z && lower) then Ok (true, Some A)
  else if ((cst A <? 0)%Z && negb lower) || ((0 <? cst A)%Z && lower) then
    r <- transpose_symmetric A None ;; Ok (false, r)
  else
    At <- transpose_general A ;;
    match At with
    | None => Err OOB
    | Some At =>
        C <- add_csc A At half half true ;;
        match C with
        | None => Err OOB
        | Some C =>
            As <- make_half (cn C) (cp C) (ci C) (cpat A || cpat At) (cx C) lower ;;
            Ok (false, Some (mkCSC (cm As) (cn As) (cnnz As) (cpat As) (if lower then -1 else 1)%Z (cp As) (ci As) (cx As)))
        end
    end.

End Sym.

Section Tree.
Context {T : Type} {DT : Dflt T}.
Variables (zero : T) (add : T -> T -> T) (ltb : T -> T -> bool) (int_max : T) (sortp : list (T * list nat) -> list (T * list nat)).

(** src/lbc_csc.cpp 299-349.  The matrix is a pattern (no values), so the arithmetic of make_symmetric is
    not used.  For stype >= 2 make_symmetric returns the matrix itself, which is then deleted twice:
    reported as [Err OOB].  The return value of compute_etree is overwritten (324, 341). *)
Definition get_coarse_levelSet_DAG_CSC_tree (stray : option nat) (cap n : nat) (lC lR : list nat) (stype : Z)
    (innerParts minLevelDist divRate : Z) (nodeCost : list T) : res (nat * (list nat * list nat * list nat)) :=
  nnz <- rd lC n ;;
  let A := mkCSC n n nnz true stype lC lR (@nil nat) in
  etree <- (if negb (stype =? 1)%Z then
              '(same, r) <- make_symmetric Nat.mul Nat.add 0 A false ;;
              match r with
              | None => Err OOB
              | Some M =>
                  '(_, etree) <- compute_etree (cm M) (cn M) (cp M) (ci M) (cst M) (repeat 0%Z n) ;;
                  if same : bool then Err OOB else Ok etree
              end
            else '(_, etree) <- compute_etree n n lC lR stype (repeat 0%Z n) ;; Ok etree) ;;
  get_coarse_levelSet_tree zero add ltb int_max sortp stray cap n etree innerParts minLevelDist divRate nodeCost.
End Tree.

(** lower triangle of a 3 x 3 matrix: (0,0)=1 (2,0)=3 (1,1)=2 (2,2)=4 *)
Definition symA : csc Z := mkCSC 3 3 4 false (-1)%Z [0;2;3;4] [0;2;1;2] [1;3;2;4]%Z.
Example transpose_symmetric_run :
  transpose_symmetric symA None = Ok (Some (mkCSC 3 3 4 false 1%Z [0;1;2;4] [0;1;0;2] [1;2;3;4]%Z)) /\
  transpose_symmetric symA (Some [2;0;1]%Z) = Ok (Some (mkCSC 3 3 4 false 1%Z [0;1;3;4] [0;1;0;2] [4;1;3;2]%Z)) /\
  transpose_symmetric symA (Some [2;0;0]%Z) = Ok None /\ transpose_symmetric symA (Some [2;3;0]%Z) = Err OOB.
Proof. splits; vm_compute; reflexivity. Qed.
Example make_symmetric_run :
  make_symmetric Z.mul Z.add 1%Z (mkCSC 3 3 4 false 0%Z [0;2;3;4] [0;2;1;0] [1;3;2;4]%Z) true =
   Ok (false, Some (mkCSC 3 3 3 false (-1)%Z [0;2;3;3] [0;2;1] [2;7;4]%Z)).
Proof. vm_compute. reflexivity. Qed.
