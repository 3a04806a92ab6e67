(** Model of the sparse matrix conversions (utils/sparse_utilities.cpp).

    Values are an arbitrary type; 0.0 is its default.  A null array is the empty
    list, so that any access to it is out of bounds. *)
From Verif Require Export Base.

(** include/aggregation/def.h 74-180 (CSC) and 183-246 (CSR): m, n, nnz, is_pattern, stype, p, i, x *)
Record csc (V : Type) := mkCSC {
  cm : nat; cn : nat; cnnz : nat; cpat : bool; cst : Z; cp : list nat; ci : list nat; cx : list V }.
Arguments mkCSC {V}. Arguments cm {V}. Arguments cn {V}. Arguments cnnz {V}. Arguments cpat {V}.
Arguments cst {V}. Arguments cp {V}. Arguments ci {V}. Arguments cx {V}.

Section Mat.
Context {V : Type} {DV : Dflt V}.

(** def.h 102-121: constructor CSC(M, N, NNZ, ip) *)
Definition new_csc (M N NNZ : nat) (ip : bool) : csc V :=
  mkCSC M N NNZ ip 0%Z (if 0 <? N then repeat 0 (N + 1) else []) (repeat 0 NNZ)
    (if ip then [] else repeat dflt NNZ).

(** def.h 211-230: constructor CSR(M, N, NNZ, ip): the pointer array has one cell per row *)
Definition new_csr (M N NNZ : nat) (ip : bool) : csc V :=
  mkCSC M N NNZ ip 0%Z (if 0 <? M then repeat 0 (M + 1) else []) (repeat 0 NNZ)
    (if ip then [] else repeat dflt NNZ).

(** sparse_utilities.cpp 28-29, 69-70, 173-175: rowCnt[Ai[i]]++ *)
Definition count_rows (nnz : nat) (Ai cnt : list nat) : res (list nat) :=
  for_ 0 nnz (fun i c => r <- rd Ai i ;; x <- rd c r ;; wr c r (x + 1)) cnt.

(** 32-37, 77-81: running sum into rowptr *)
Definition scan_rows (nrow nnz : nat) (rowCnt rowptr : list nat) : res (list nat) :=
  '(rp, _) <- for_ 0 nrow (fun i '(rp, counter) =>
      rp' <- wr rp i counter ;; x <- rd rowCnt i ;; Ok (rp', counter + x)) (rowptr, 0) ;;
  wr rp nrow nnz.

(** 43-51, 87-96, 183-192: one entry goes to its row.  The value is copied unless the
    matrix is a pattern. *)
Definition place_entry (pat : bool) (Ai : list nat) (Ax : list V) (ptr : list nat) (i j : nat)
    (st : list nat * list nat * list V) : res (list nat * list nat * list V) :=
  let '(cnt, bi, bx) := st in
  row <- rd Ai j ;; b <- rd ptr row ;; x <- rd cnt row ;;
  bi' <- wr bi (b + x) i ;;
  bx' <- (if pat then Ok bx else v <- rd Ax j ;; wr bx (b + x) v) ;;
  cnt' <- wr cnt row (x + 1) ;;
  Ok (cnt', bi', bx').

Definition place_rows (pat : bool) (ncol : nat) (Ap Ai : list nat) (Ax : list V) (ptr cnt bi : list nat)
    (bx : list V) : res (list nat * list V) :=
  '(_, bi', bx') <- for_ 0 ncol (fun i st =>
      a <- rd Ap i ;; b <- rd Ap (S i) ;;
      for_ a b (place_entry pat Ai Ax ptr i) st) (cnt, bi, bx) ;;
  Ok (bi', bx').

(** 23-57: csc_to_csr on arrays *)
Definition csc_to_csr_arr (nrow ncol : nat) (Ap Ai : list nat) (Ax : list V) : res (list nat * list nat * list V) :=
  nnz <- rd Ap ncol ;;
  rowCnt <- count_rows nnz Ai (repeat 0 nrow) ;;
  rowptr <- scan_rows nrow nnz rowCnt (repeat 0 (nrow + 1)) ;;
  '(colind, values) <- place_rows false ncol Ap Ai Ax rowptr (repeat 0 nrow) (repeat 0 nnz) (repeat dflt nnz) ;;
  Ok (rowptr, colind, values).

(** 103-106: csr_to_csc on arrays (the parameter called Ai is the row pointer) *)
Definition csr_to_csc_arr (nrow ncol : nat) (Ai Ap : list nat) (Ax : list V) : res (list nat * list nat * list V) :=
  csc_to_csr_arr ncol nrow Ap Ai Ax.

(** 59-92: csc_to_csr on matrices *)
Definition csc_to_csr (A : csc V) : res (csc V) :=
  nnz <- rd (cp A) (cn A) ;;
  rowCnt <- count_rows nnz (ci A) (repeat 0 (cm A)) ;;
  let B := new_csr (cm A) (cn A) (cnnz A) (cpat A) in
  rowptr <- scan_rows (cm A) nnz rowCnt (cp B) ;;
  '(colind, values) <- place_rows (cpat A) (cn A) (cp A) (ci A) (cx A) rowptr (repeat 0 (cm A)) (ci B) (cx B) ;;
  Ok (mkCSC (cm B) (cn B) (cnnz B) (cpat B) (cst B) rowptr colind values).

(** 108-115: csr_to_csc on matrices.  The dimensions are passed in the order (m, n), so
    the columns of the row-compressed input are taken to be n. *)
Definition csr_to_csc (A : csc V) : res (csc V) :=
  '(p, i, x) <- csc_to_csr_arr (cm A) (cn A) (cp A) (ci A) (cx A) ;;
  nnz <- rd p (cn A) ;;
  Ok (mkCSC (cm A) (cn A) nnz false (cst A) p i x).

(** 163-195: transpose_general; a null pointer for a matrix without rows *)
Definition transpose_general (A : csc V) : res (option (csc V)) :=
  if cm A =? 0 then Ok None
  else
    let AT := new_csc (cn A) (cm A) (cnnz A) (cpat A) in
    nnz <- rd (cp A) (cn A) ;;
    col_cnt <- count_rows nnz (ci A) (repeat 0 (cm A)) ;;
    p0 <- wr (cp AT) 0 0 ;;
    p <- for_ 1 (cm A + 1) (fun j p => a <- rd p (j - 1) ;; x <- rd col_cnt (j - 1) ;; wr p j (a + x)) p0 ;;
    '(i, x) <- place_rows (cpat A) (cn A) (cp A) (ci A) (cx A) p (repeat 0 (cm A)) (ci AT) (cx AT) ;;
    Ok (Some (mkCSC (cm AT) (cn AT) (cnnz AT) (cpat AT) (cst AT) p i x)).

(** 203, 216: the test of make_half *)
Definition in_half (lower : bool) (i r : nat) : bool := if lower then i <=? r else r <=? i.

(** 198-227: make_half.  [pat] says whether Ax is null; stype is -1 in both cases. *)
Definition make_half (An : nat) (Ap Ai : list nat) (pat : bool) (Ax : list V) (lower : bool) : res (csc V) :=
  Bnz <- for_ 0 An (fun i c =>
      a <- rd Ap i ;; b <- rd Ap (S i) ;;
      for_ a b (fun j c => r <- rd Ai j ;; Ok (if in_half lower i r then c + 1 else c)) c) 0 ;;
  let B := new_csc An An Bnz pat in
  '(bp, bi, bx, _) <- for_ 0 An (fun i '(bp, bi, bx, c) =>
      a <- rd Ap i ;; b <- rd Ap (S i) ;;
      '(bi', bx', c') <- for_ a b (fun j '(bi, bx, c) =>
          r <- rd Ai j ;;
          if in_half lower i r then
            bi' <- wr bi c r ;;
            bx' <- (if pat then Ok bx else v <- rd Ax j ;; wr bx c v) ;;
            Ok (bi', bx', c + 1)
          else Ok (bi, bx, c)) (bi, bx, c) ;;
      bp' <- wr bp (S i) c' ;; Ok (bp', bi', bx', c')) (cp B, ci B, cx B, 0) ;;
  Ok (mkCSC An An Bnz pat (-1)%Z bp bi bx).

(** 242, 250-263: a push into column [c] *)
Definition full_push (ptr : list nat) (c r : nat) (v : V) (st : list nat * list nat * list V) :
    res (list nat * list nat * list V) :=
  let '(ind, bi, bx) := st in
  b <- rd ptr c ;; x <- rd ind c ;;
  bi' <- wr bi (b + x) r ;; bx' <- wr bx (b + x) v ;; ind' <- wr ind c (x + 1) ;; Ok (ind', bi', bx').

(** 229-270: make_full; a null pointer when the matrix is not marked symmetric *)
Definition make_full (A : csc V) : res (option (csc V)) :=
  if (cst A =? 0)%Z then Ok None
  else
    let F := new_csc (cm A) (cn A) (cnnz A * 2) false in
    ind <- for_ 0 (cn A) (fun i ind =>
        a <- rd (cp A) i ;; b <- rd (cp A) (S i) ;;
        for_ a b (fun p ind =>
          row <- rd (ci A) p ;;
          x <- rd ind i ;; ind1 <- wr ind i (x + 1) ;;
          if row =? i then Ok ind1 else y <- rd ind1 row ;; wr ind1 row (y + 1)) ind) (repeat 0 (cn A)) ;;
    p0 <- wr (cp F) 0 0 ;;
    p <- for_ 0 (cn A) (fun i p => a <- rd p i ;; x <- rd ind i ;; wr p (S i) (a + x)) p0 ;;
    ind0 <- for_ 0 (cn A) (fun i ind => wr ind i 0) ind ;;
    '(_, fi, fx) <- for_ 0 (cn A) (fun i st =>
        a <- rd (cp A) i ;; b <- rd (cp A) (S i) ;;
        for_ a b (fun k st =>
          row <- rd (ci A) k ;; v <- rd (cx A) k ;;
          st1 <- full_push p i row v st ;;
          if row =? i then Ok st1 else full_push p row i v st1) st) (ind0, ci F, cx F) ;;
    nnz <- rd p (cn A) ;;
    Ok (Some (mkCSC (cm A) (cn A) nnz false (cst F) p fi fx)).

(** 495-505 compute_inv_perm (n > 0) and 1149-1153 inv_perm *)
Definition inv_perm (n : nat) (perm iperm : list nat) : res (list nat) :=
  for_ 0 n (fun i ip => x <- rd perm i ;; wr ip x i) iperm.

(** 1140-1147: reorder_array *)
Definition reorder_array {A} (n : nat) (arr : list A) (perm : list nat) (ws : list A) : res (list A * list A) :=
  ws' <- for_ 0 n (fun i ws => x <- rd perm i ;; v <- rd arr x ;; wr ws i v) ws ;;
  arr' <- for_ 0 n (fun j arr => v <- rd ws' j ;; wr arr j v) arr ;;
  Ok (arr', ws').

(** 1156-1176: permute_general; a null permutation is [None].  A null value array of C
    (Cx) occurs only when nnz = 0. *)
Definition permute_general (A : csc V) (pinv q : option (list nat)) : res (csc V) :=
  let C := new_csc (cm A) (cn A) (cnnz A) false in
  '(p, i, x, nz) <- for_ 0 (cn A) (fun k '(p, i, x, nz) =>
      p' <- wr p k nz ;;
      j <- match q with Some q => rd q k | None => Ok k end ;;
      a <- rd (cp A) j ;; b <- rd (cp A) (S j) ;;
      '(i', x', nz') <- for_ a b (fun t '(i, x, nz) =>
          x' <- (if cnnz A =? 0 then Ok x else v <- rd (cx A) t ;; wr x nz v) ;;
          r <- rd (ci A) t ;;
          r' <- match pinv with Some pv => rd pv r | None => Ok r end ;;
          i' <- wr i nz r' ;; Ok (i', x', nz + 1)) (i, x, nz) ;;
      Ok (p', i', x', nz')) (cp C, ci C, cx C, 0) ;;
  p' <- wr p (cn A) nz ;;
  Ok (mkCSC (cm C) (cn C) (cnnz C) false (cst C) p' i x).

(** 507-517: copy_sparse (its copy of the values reads A->x for a pattern too) *)
Definition copy_sparse (A : csc V) : res (csc V) :=
  let C := new_csc (cm A) (cn A) (cnnz A) false in
  p <- for_ 0 (cn A + 1) (fun i p => v <- rd (cp A) i ;; wr p i v) (cp C) ;;
  '(i, x) <- for_ 0 (cnnz A) (fun j '(i, x) =>
      r <- rd (ci A) j ;; i' <- wr i j r ;; v <- rd (cx A) j ;; x' <- wr x j v ;; Ok (i', x')) (ci C, cx C) ;;
  Ok (mkCSC (cm C) (cn C) (cnnz C) false (cst A) p i x).

(** 519-537: copy_from_to.  Line 521/531 is dst->p[i] = dst->p[i]. *)
Definition copy_from_to (n : nat) (src dst : csc V) : res (csc V) :=
  '(p, i, x) <- for_ 0 n (fun c '(p, i, x) =>
      v <- rd p c ;; p' <- wr p c v ;;
      a <- rd (cp src) c ;; b <- rd (cp src) (S c) ;;
      '(i', x') <- for_ a b (fun j '(i, x) =>
          r <- rd (ci src) j ;; i' <- wr i j r ;; v <- rd (cx src) j ;; x' <- wr x j v ;; Ok (i', x')) (i, x) ;;
      Ok (p', i', x')) (cp dst, ci dst, cx dst) ;;
  Ok (mkCSC (cm dst) (cn dst) (cnnz dst) (cpat dst) (cst dst) p i x).

(** 117-151: tridiag *)
Definition tridiag (n : nat) (a0 a1 a2 : V) : res (csc V) :=
  let A := new_csc n n (3 * n - 2) false in
  p0 <- wr (cp A) 0 0 ;;
  '(p, i, x, _) <- for_ 0 n (fun k '(p, i, x, ind) =>
      b <- rd p k ;;
      if (k =? 0) || (k =? n - 1) then
        p' <- wr p (S k) (b + 2) ;;
        if k =? 0 then
          i1 <- wr i ind k ;; x1 <- wr x ind a1 ;; i2 <- wr i1 (ind + 1) (k + 1) ;; x2 <- wr x1 (ind + 1) a2 ;;
          Ok (p', i2, x2, ind + 2)
        else
          i1 <- wr i ind (k - 1) ;; x1 <- wr x ind a0 ;; i2 <- wr i1 (ind + 1) k ;; x2 <- wr x1 (ind + 1) a1 ;;
          Ok (p', i2, x2, ind + 2)
      else
        p' <- wr p (S k) (b + 3) ;;
        i1 <- wr i ind (k - 1) ;; i2 <- wr i1 (ind + 1) k ;; i3 <- wr i2 (ind + 2) (k + 1) ;;
        x1 <- wr x ind a0 ;; x2 <- wr x1 (ind + 1) a1 ;; x3 <- wr x2 (ind + 2) a2 ;;
        Ok (p', i3, x3, ind + 3)) (p0, ci A, cx A, 0) ;;
  Ok (mkCSC n n (3 * n - 2) true (-1)%Z p i x).

End Mat.

(** columns of [[1 . 4][. 2 5][3 . .]] (3 x 3) *)
Example csc_to_csr_run :
  csc_to_csr_arr 3 3 [0;2;3;5] [0;2;1;0;1] [1;3;2;4;5]%Z = Ok ([0;2;4;5], [0;2;1;2;0], [1;4;2;5;3]%Z).
Proof. vm_compute. reflexivity. Qed.
Example make_full_run :
  make_full (mkCSC 3 3 4 false (-1)%Z [0;2;3;4] [0;2;1;2] [1;3;2;4]%Z) =
    Ok (Some (mkCSC 3 3 5 false 0%Z [0;2;3;5] [0;2;1;0;2;0;0;0] [1;3;2;3;4;0;0;0]%Z)).
Proof. vm_compute. reflexivity. Qed.
