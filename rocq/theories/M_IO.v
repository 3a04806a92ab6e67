(** Models of the readers, writers and format converters of utils/sparse_io.cpp (16-158, 278-424). *)
From Coq Require Import Ascii String.
From Verif Require Import Base M_Mat.
Local Open Scope nat_scope.

Section IO.
Context {V : Type} {DV : Dflt V}.
Variable zero : V.          (* the initial value 0.0 *)
Variable ofZ : Z -> V.      (* an integer literal read as a double *)

(** * read_mtx (16-65) *)

(** The file after its size line is a list of number literals separated by white space.  Integer literals can be read
    by %d and %lg, others only by %lg: %d on one of those would consume a part of it, which is not modelled
    ([Err Uninit]). *)
Inductive tok := TInt (z : Z) | TReal (v : V).
Definition tval (t : tok) : V := match t with TInt z => ofZ z | TReal v => v end.
Definition tint (t : tok) : res Z := match t with TInt z => Ok z | TReal _ => Err Uninit end.

(** 36: fscanf "%d %d %lg": [None] for EOF; fields that are not read are [None] *)
Definition fscanf3 (toks : list tok) : res (option (Z * option Z * option V * list tok)) :=
  match toks with
  | [] => Ok None
  | [a] => a <- tint a ;; Ok (Some (a, None, None, []))
  | [a; b] => a <- tint a ;; b <- tint b ;; Ok (Some (a, Some b, None, []))
  | a :: b :: v :: r => a <- tint a ;; b <- tint b ;; Ok (Some (a, Some b, Some (tval v), r))
  end.

(** a matrix as read from a file: row indices are ints *)
Record mtx := mkMtx { mm : nat; mn : nat; mnnz : nat; mst : Z; mp : list nat; mi : list Z; mx : list V }.

(** 35-44: the coordinate arrays; the flag tells that the file ended early *)
Definition read_coo (nnz : nat) (toks : list tok) : res (bool * list Z * list Z * list V) :=
  '(eof, Ri, J, X, _) <- forb_ 0 nnz (fun k '(_, Ri, J, X, toks) =>
      o <- fscanf3 toks ;;
      match o with
      | None => Ok (true, (true, Ri, J, X, toks))
      | Some (a, b, v, toks) =>
          Ri <- wr Ri k a ;;
          J <- match b with Some b => wr J k b | None => Ok J end ;;
          X <- match v with Some v => wr X k v | None => Ok X end ;;
          a <- rd Ri k ;; Ri <- wr Ri k (a - 1)%Z ;;
          b <- rd J k ;; J <- wr J k (b - 1)%Z ;;
          Ok (false, (false, Ri, J, X, toks))
      end) (false, repeat 0%Z nnz, repeat 0%Z nnz, repeat zero nnz, toks) ;;
  Ok (eof, Ri, J, X).

(** 50-55: the index of the last element of the run that starts at [i] *)
Definition run_end (nnz : nat) (J : list Z) (i : nat) : res nat :=
  cur <- rd J i ;;
  st <- while_ (S nnz)
    (fun '(i, j) => if j <? nnz then x <- rd J j ;; Ok (x =? cur)%Z else Ok false)
    (fun '(i, j) => Ok (S i, S j)) (i, S i) ;;
  Ok (fst st).

(** 46-57 *)
Definition run_starts (nnz : nat) (J : list Z) (p : list nat) : res (list nat) :=
  '(_, _, p) <- while_ (S nnz)
    (fun '(i, index, p) => Ok (i <? nnz))
    (fun '(i, index, p) => p <- wr p index i ;; i <- run_end nnz J i ;; Ok (S i, S index, p)) (0, 0, p) ;;
  Ok p.

(** 26-65 after the banner and the size line; [sym] tells whether the banner says symmetric.  [Ok None] is the null
    pointer.  The column pointer array of a matrix without columns is null. *)
Definition read_mtx (m n nnz : nat) (sym : bool) (toks : list tok) : res (option mtx) :=
  let p := if 0 <? n then repeat 0 (n + 1) else [] in
  '(eof, Ri, J, X) <- read_coo nnz toks ;;
  if (eof : bool) then Ok None else
  p <- run_starts nnz J p ;;
  p <- wr p n nnz ;;
  Ok (Some (mkMtx m n nnz (if sym then -1 else 0)%Z p Ri X)).

(** * CSC_to_mtx (67-83): size line and entries; [round] is printing with three significant digits and reading back *)
Definition CSC_to_mtx (round : V -> V) (A : csc V) : res (nat * nat * nat * list tok) :=
  out <- for_ 0 (cn A) (fun c out =>
      b <- rd (cp A) c ;; e <- rd (cp A) (S c) ;;
      for_ b e (fun j out => r <- rd (ci A) j ;; x <- rd (cx A) j ;;
        Ok (out ++ [TInt (Z.of_nat r + 1); TInt (Z.of_nat c + 1); TReal (round x)])) out) [] ;;
  Ok (cm A, cn A, cnnz A, out).

(** * convert_to_one_based (113-130) *)
Definition convert_to_one_based (A : csc V) : res (csc V) :=
  let Ri0 := repeat 0 (cnnz A) in
  let X0 := if cpat A then [] else repeat zero (cnnz A) in
  '(Ri, X) <- (if cpat A
     then Ri <- for_ 0 (cnnz A) (fun j Ri => a <- rd (ci A) j ;; wr Ri j (a + 1)) Ri0 ;; Ok (Ri, X0)
     else for_ 0 (cnnz A) (fun j '(Ri, X) =>
            a <- rd (ci A) j ;; Ri <- wr Ri j (a + 1) ;; x <- rd X j ;; X <- wr X j x ;; Ok (Ri, X)) (Ri0, X0)) ;;
  p <- for_ 0 (cn A + 1) (fun k p => a <- rd (cp A) k ;; wr p (S k) a) (repeat 0 (S (cn A + 1))) ;;
  Ok (mkCSC (cm A) (cn A) (cnnz A) (cpat A) 0%Z p Ri X).

(** * dense_to_csc (132-158); [val] has one list per row, [isz] tests [== 0] *)
Variable isz : V -> bool.
Definition dense_to_csc (rows cols : nat) (val : list (list V)) : res (csc V) :=
  '(nnz, nz_col) <- for_ 0 cols (fun j st =>
      for_ 0 rows (fun i '(nnz, nz_col) =>
        r <- rd val i ;; v <- rd r j ;;
        if isz v then Ok (nnz, nz_col) else c <- rd nz_col j ;; nz_col <- wr nz_col j (S c) ;; Ok (S nnz, nz_col)) st)
      (0, repeat 0 cols) ;;
  let p := if 0 <? cols then repeat 0 (cols + 1) else [] in
  p <- for_ 0 cols (fun k p => a <- rd p k ;; c <- rd nz_col k ;; wr p (S k) (a + c)) p ;;
  last <- rd p cols ;;
  if negb (last =? nnz) then Err Throw else
  '(_, Ri, X) <- for_ 0 cols (fun j st =>
      for_ 0 rows (fun i '(k, Ri, X) =>
        r <- rd val i ;; v <- rd r j ;;
        if isz v then Ok (k, Ri, X) else Ri <- wr Ri k i ;; X <- wr X k v ;; Ok (S k, Ri, X)) st)
      (0, repeat 0 nnz, repeat zero nnz) ;;
  Ok (mkCSC rows cols nnz false 0%Z p Ri X).

(** * compress_triplets_to_csc (378-402) *)

(** (row, col, val) *)
Definition trip : Type := Z * Z * V.
Definition trow (t : trip) : Z := fst (fst t).
Definition tcol (t : trip) : Z := snd (fst t).
Definition tvl (t : trip) : V := snd t.

(** vector::insert *)
Definition insert_at {X} (l : list X) (k : nat) (x : X) : res (list X) :=
  if k <=? List.length l then Ok (firstn k l ++ x :: skipn k l)%list else Err OOB.

(** [sortp] is std::sort; result: p, i, x and the triplets.  A->nnz is the size of the arrays of A. *)
Definition compress_triplets_to_csc (sortp : list trip -> list trip) (n nnz : nat) (tv : list trip) (add_diags : bool) :
    res (list nat * list Z * list V * list trip) :=
  if negb (nnz =? List.length tv) then Err Throw else
  let tv := sortp tv in
  count <- for_ 0 nnz (fun i count => t <- rd tv i ;; c <- rdZ count (tcol t) ;; wrZ count (tcol t) (S c)) (repeat 0 n) ;;
  p <- wr (if 0 <? n then repeat 0 (n + 1) else []) 0 0 ;;
  '(p, tv) <- for_ 0 n (fun j '(p, tv) =>
      c <- rd count j ;; a <- rd p j ;;
      if (c =? 0) && add_diags then
        tv <- insert_at tv a (Z.of_nat j, Z.of_nat j, zero) ;; p <- wr p (S j) (a + 1) ;; Ok (p, tv)
      else p <- wr p (S j) (a + c) ;; Ok (p, tv)) (p, tv) ;;
  '(Ri, X) <- for_ 0 nnz (fun k '(Ri, X) =>
      t <- rd tv k ;; Ri <- wr Ri k (trow t) ;; X <- wr X k (tvl t) ;; Ok (Ri, X)) (repeat 0%Z nnz, repeat zero nnz) ;;
  Ok (p, Ri, X, tv).

(** 358-375: [inFile >>] leaves 0 when the stream has failed; a token that is not an integer is not modelled as above *)
Definition get_int (toks : list tok) : res (Z * list tok) :=
  match toks with [] => Ok (0%Z, []) | t :: r => z <- tint t ;; Ok (z, r) end.
Definition get_val (toks : list tok) : V * list tok :=
  match toks with [] => (zero, []) | t :: r => (tval t, r) end.
Definition read_triplets_real (one : V) (nnz : nat) (read_val : bool) (toks : list tok) : res (list trip) :=
  '(out, _) <- for_ 0 nnz (fun _ '(out, toks) =>
      '(r, toks) <- get_int toks ;; '(c, toks) <- get_int toks ;;
      let '(v, toks) := if read_val then get_val toks else (one, toks) in
      Ok ((out ++ [((r - 1)%Z, (c - 1)%Z, v)])%list, toks)) ([], toks) ;;
  Ok out.

(** * read_header (278-336) *)

Inductive arith := REAL | INT | COMPLEX | PATTERN.
Inductive shape := LOWER | GENERAL.
Inductive format := COORDINATE | ARRAY.

Variable words : string -> list string.       (* the words of a line, as extracted by >> *)
Variable trim_lower : string -> string.       (* 283-284: trim, tolower *)
Variable trim : string -> string.
Variable number : string -> option Z.         (* a word read by >> into an int *)

(** std::getline on the lines not yet read; [eof]: the end of the file was hit by the previous call.  After that the
    string is left as it is.  [nl]: the file ends with a newline, so that one more call succeeds with an empty line. *)
Definition getline (nl : bool) (line : string) (st : list string * bool) : string * (list string * bool) :=
  let '(lines, eof) := st in
  if (eof : bool) then (line, ([], true)) else
  match lines with
  | [] => (EmptyString, ([], true))
  | [l] => (l, ([], negb nl))
  | l :: r => (l, (r, false))
  end.

Definition is_comment (line : string) : bool := match line with String c _ => Ascii.eqb c "%" | EmptyString => false end.

Definition read_header (fuel : nat) (nl : bool) (lines : list string) : res (Z * Z * Z * arith * shape * format * (list string * bool)) :=
  let '(line, st) := getline nl EmptyString (lines, false) in
  let line := trim_lower line in
  match words line with
  | banner :: mtx :: crd :: ar :: sym :: _ =>
      if negb (String.eqb banner "%%matrixmarket") then Err Throw else
      if negb (String.eqb mtx "matrix") then Err Throw else
      fmt <- (if String.eqb crd "coordinate" then Ok COORDINATE else if String.eqb crd "array" then Ok ARRAY else Err Throw) ;;
      ari <- (if String.eqb ar "real" then Ok REAL else if String.eqb ar "integer" then Ok INT
              else if String.eqb ar "complex" then Ok COMPLEX else if String.eqb ar "pattern" then Ok PATTERN else Err Throw) ;;
      shp <- (if String.eqb sym "symmetric" then Ok LOWER else if String.eqb sym "general" then Ok GENERAL else Err Throw) ;;
      '(line, st) <- while_ fuel (fun '(line, st) => Ok (is_comment line))
         (fun '(line, st) => let '(line, st) := getline nl line st in Ok (trim line, st)) (line, st) ;;
      match fmt with
      | COORDINATE => match map number (words line) with
                      | Some r :: Some c :: Some z :: _ => Ok (r, c, z, ari, shp, fmt, st)
                      | _ => Err Throw end
      | ARRAY => match map number (words line) with
                 | Some r :: Some c :: _ => Ok (r, c, (r * c)%Z, ari, shp, fmt, st)
                 | _ => Err Throw end
      end
  | _ => Err Throw
  end.

(** * read_mtx_csc_real (404-424): header values, then the entries *)
Definition read_mtx_csc_real (sortp : list trip -> list trip) (one : V) (m n nnz : nat) (ar : arith) (sh : shape) (fm : format)
    (toks : list tok) (insert_diag : bool) : res mtx :=
  match ar with COMPLEX => Err Throw | _ =>
  match fm with ARRAY => Err Throw | COORDINATE =>
    tv <- read_triplets_real one nnz (match ar with PATTERN => false | _ => true end) toks ;;
    '(p, Ri, X, _) <- compress_triplets_to_csc sortp n nnz tv insert_diag ;;
    last <- rd p n ;;
    Ok (mkMtx m n last (match sh with LOWER => -1 | GENERAL => 0 end)%Z p Ri X)
  end end.
End IO.
Arguments mkMtx {V}. Arguments mm {V}. Arguments mn {V}. Arguments mnnz {V}. Arguments mst {V}. Arguments mp {V}. Arguments mi {V}. Arguments mx {V}.
Arguments TInt {V}. Arguments TReal {V}.
