(** read_mtx and CSC_to_mtx of utils/sparse_io.cpp (16-83) on the characters of the file. *)
From Coq Require Import Ascii String.
From Verif Require Import Base M_Mat M_IO M_MMIO.
Local Open Scope nat_scope.
Import ListNotations.

Section MtxFile.
Context {V : Type} {DV : Dflt V}.
Variable zero : V.                      (* the initial value 0.0 *)
Variable scan_dbl : text -> scan V.     (* %lg *)
Variable show_dbl : V -> text.          (* %10.3g, padding included *)

(** 35-44: [fscanf "%d %d %lg\n"] returns EOF exactly if only white space is left; else the fields that cannot be read
    keep what they hold, and both indices are lowered.  The flag tells that the file ended early. *)
Definition coo_step (k : nat) (st : bool * list Z * list Z * list V * text) : res (bool * (bool * list Z * list Z * list V * text)) :=
  let '(_, Ri, J, X, f) := st in
  match skip_ws f with
  | [] => Ok (true, (true, Ri, J, X, f))
  | _ :: _ =>
      let '(l, f) := fscanf scan_dbl [FInt; FInt; FDbl] true f in
      Ri <- match nth_error l 0 with Some (VInt z) => wr Ri k z | _ => Ok Ri end ;;
      J <- match nth_error l 1 with Some (VInt z) => wr J k z | _ => Ok J end ;;
      X <- match nth_error l 2 with Some (VDbl v) => wr X k v | _ => Ok X end ;;
      a <- rd Ri k ;; Ri <- wr Ri k (a - 1)%Z ;;
      b <- rd J k ;; J <- wr J k (b - 1)%Z ;;
      Ok (false, (false, Ri, J, X, f))
  end.
Definition read_coo_text (nnz : nat) (f : text) : res (bool * list Z * list Z * list V) :=
  '(eof, Ri, J, X, _) <- forb_ 0 nnz coo_step (false, repeat 0%Z nnz, repeat 0%Z nnz, repeat zero nnz, f) ;;
  Ok (eof, Ri, J, X).

(** 30-65, the sizes being nonnegative *)
Definition fill_mtx (m n nnz : nat) (sym : bool) (f : text) : res (option mtx) :=
  let p := if 0 <? n then repeat 0 (n + 1) else [] in
  '(eof, Ri, J, X) <- read_coo_text nnz f ;;
  if (eof : bool) then Ok None else
  p <- run_starts nnz J p ;;
  p <- wr p n nnz ;;
  Ok (Some (mkMtx m n nnz (if sym then -1 else 0)%Z p Ri X)).

(** read_mtx (16-65); [None] is a file that cannot be opened.  [Ok None] is the null pointer, exit(1) is [Err Throw].
    The banner's object, format and field are not looked at.  Simplification: a file with a negative size is
    [Err Throw].  (In the code a negative n or nnz becomes a huge size_t in 31 and new throws, except that n = -1 writes
    p[-1] in 59; a negative m would be stored modulo 2^64.) *)
Definition read_mtx_file (fuel : nat) (file : option text) : res (option mtx) :=
  match file with
  | None => Err Throw
  | Some f =>
      '(code, t, f) <- mm_read_banner f ;;
      if negb (code =? 0)%Z then Ok None else
      '(code, sz, f) <- mm_read_mtx_crd_size fuel f ;;
      if negb (code =? 0)%Z then Err Throw else
      m <- rd sz 0 ;; n <- rd sz 1 ;; nnz <- rd sz 2 ;;
      if ((m <? 0) || (n <? 0) || (nnz <? 0))%Z then Err Throw else
      fill_mtx (Z.to_nat m) (Z.to_nat n) (Z.to_nat nnz) (mm_is_symmetric t) f
  end.

(** CSC_to_mtx (67-83): the characters written; the codes of 76 and 77 are not looked at.  The type is that of
    mm_initialize_typecode, mm_set_matrix, mm_set_coordinate and mm_set_real (include/aggregation/mmio.h 57-77). *)
Definition CSC_to_mtx_file (A : csc V) : res text :=
  '(_, banner) <- mm_write_banner (mkTC "M" "C" "R" "G") ;;
  let '(_, sizes) := mm_write_mtx_crd_size (Z.of_nat (cm A)) (Z.of_nat (cn A)) (Z.of_nat (cnnz A)) in
  for_ 0 (cn A) (fun c out =>
      b <- rd (cp A) c ;; e <- rd (cp A) (S c) ;;
      for_ b e (fun j out => r <- rd (ci A) j ;; x <- rd (cx A) j ;;
        Ok (out ++ show_int (Z.of_nat r + 1) ++ [SP] ++ show_int (Z.of_nat c + 1) ++ [SP] ++ show_dbl x ++ [NL])%list) out)
    (banner ++ sizes)%list.
End MtxFile.
