(** Models of the Matrix Market routines of utils/external/mmio.cpp and of the macros of include/aggregation/mmio.h,
    on the level of characters.

    A file is the list of its remaining characters; no NUL character occurs in it.  [int] is the type of all integers
    (no overflow in %d).  %lg and %20.16g are parameters. *)
From Coq Require Import Ascii String.
From Coq Require Import Decimal.
From Verif Require Import Base.
Local Open Scope nat_scope.

Notation text := (list ascii).
Definition chars (s : string) : text := list_ascii_of_string s.
Definition NL : ascii := "010"%char.
Definition SP : ascii := " "%char.

(** isspace, isdigit and tolower of the C locale *)
Definition is_space (c : ascii) : bool := let n := nat_of_ascii c in ((9 <=? n) && (n <=? 13)) || (n =? 32).
Definition is_digit (c : ascii) : bool := let n := nat_of_ascii c in (48 <=? n) && (n <=? 57).
Definition lower_char (c : ascii) : ascii :=
  let n := nat_of_ascii c in if (65 <=? n) && (n <=? 90) then ascii_of_nat (n + 32) else c.
Definition lower : text -> text := map lower_char.
Definition text_eqb (a b : text) : bool := if list_eq_dec ascii_dec a b then true else false.

(** * The C library: fgets, %s, %d, fscanf, fprintf *)

(** fgets with room for [k] characters: up to and including the first newline *)
Fixpoint get_chars (k : nat) (f : text) : text * text :=
  match k with
  | 0 => ([], f)
  | S k => match f with
           | [] => ([], [])
           | c :: f => if ascii_dec c NL then ([c], f) else let '(l, r) := get_chars k f in (c :: l, r)
           end
  end.
(** [None] is the NULL result at the end of the file; one character of the buffer is for the terminating NUL *)
Definition fgets (size : nat) (f : text) : option (text * text) :=
  match f with [] => None | _ => Some (get_chars (size - 1) f) end.

Fixpoint skip_ws (f : text) : text := match f with [] => [] | c :: r => if is_space c then skip_ws r else f end.
Fixpoint take_word (f : text) : text * text :=
  match f with
  | [] => ([], [])
  | c :: r => if is_space c then ([], f) else let '(w, r) := take_word r in (c :: w, r)
  end.

(** sscanf of [k] fields %s into buffers of [size] characters: the words that are read *)
Fixpoint scan_words (k size : nat) (f : text) : res (list text) :=
  match k with
  | 0 => Ok []
  | S k => match skip_ws f with
           | [] => Ok []
           | f => let '(w, r) := take_word f in
                  if length w <? size then ws <- scan_words k size r ;; Ok (w :: ws) else Err OOB
           end
  end.

(** the outcomes of one conversion of fscanf *)
Inductive scan (A : Type) := Got (a : A) (rest : text) | Mismatch (rest : text) | AtEof.
Arguments Got {A}. Arguments Mismatch {A}. Arguments AtEof {A}.

Definition digit_val (c : ascii) : nat := nat_of_ascii c - 48.
Fixpoint scan_digits (acc : nat) (f : text) : nat * text :=
  match f with
  | [] => (acc, [])
  | c :: r => if is_digit c then scan_digits (acc * 10 + digit_val c) r else (acc, f)
  end.
(** %d *)
Definition scan_int (f : text) : scan Z :=
  match skip_ws f with
  | [] => AtEof
  | c :: r =>
      if is_digit c then let '(n, r) := scan_digits 0 (c :: r) in Got (Z.of_nat n) r
      else if ascii_dec c "-"%char then
        match r with d :: _ => if is_digit d then let '(n, r) := scan_digits 0 r in Got (- Z.of_nat n)%Z r else Mismatch r | [] => Mismatch r end
      else if ascii_dec c "+"%char then
        match r with d :: _ => if is_digit d then let '(n, r) := scan_digits 0 r in Got (Z.of_nat n) r else Mismatch r | [] => Mismatch r end
      else Mismatch (c :: r)
  end.

(** fprintf "%d" *)
Fixpoint digits_of (d : Decimal.uint) : text :=
  match d with
  | Nil => []
  | D0 d => "0"%char :: digits_of d | D1 d => "1"%char :: digits_of d | D2 d => "2"%char :: digits_of d
  | D3 d => "3"%char :: digits_of d | D4 d => "4"%char :: digits_of d | D5 d => "5"%char :: digits_of d
  | D6 d => "6"%char :: digits_of d | D7 d => "7"%char :: digits_of d | D8 d => "8"%char :: digits_of d
  | D9 d => "9"%char :: digits_of d
  end.
Definition show_nat (n : nat) : text := digits_of (Nat.to_uint n).
Definition show_int (z : Z) : text := if (z <? 0)%Z then "-"%char :: show_nat (Z.abs_nat z) else show_nat (Z.abs_nat z).

(** * mmio.h *)

(** 9-11, 83-89 *)
Definition MM_MAX_LINE_LENGTH := 1025.
Definition MM_MAX_TOKEN_LENGTH := 64.
Definition MatrixMarketBanner := chars "%%MatrixMarket".
Definition MM_COULD_NOT_READ_FILE := 11%Z.
Definition MM_PREMATURE_EOF := 12%Z.
Definition MM_NO_HEADER := 14%Z.
Definition MM_UNSUPPORTED_TYPE := 15%Z.
Definition MM_COULD_NOT_WRITE_FILE := 17%Z.

(** 13: MM_typecode is an array of four characters *)
Record typecode := mkTC { tc0 : ascii; tc1 : ascii; tc2 : ascii; tc3 : ascii }.
Definition is (a b : ascii) : bool := if ascii_dec a b then true else false.

(** 35-50 *)
Definition mm_is_matrix t := is (tc0 t) "M".
Definition mm_is_sparse t := is (tc1 t) "C".
Definition mm_is_dense t := is (tc1 t) "A".
Definition mm_is_complex t := is (tc2 t) "C".
Definition mm_is_real t := is (tc2 t) "R".
Definition mm_is_pattern t := is (tc2 t) "P".
Definition mm_is_integer t := is (tc2 t) "I".
Definition mm_is_symmetric t := is (tc3 t) "S".
Definition mm_is_general t := is (tc3 t) "G".
Definition mm_is_skew t := is (tc3 t) "K".
Definition mm_is_hermitian t := is (tc3 t) "H".

(** 57-78 *)
Definition set0 c t := mkTC c (tc1 t) (tc2 t) (tc3 t).
Definition set1 c t := mkTC (tc0 t) c (tc2 t) (tc3 t).
Definition set2 c t := mkTC (tc0 t) (tc1 t) c (tc3 t).
Definition set3 c t := mkTC (tc0 t) (tc1 t) (tc2 t) c.
Definition mm_clear_typecode : typecode := mkTC SP SP SP "G".

(** 109-121 *)
Definition MM_MTX_STR := chars "matrix".
Definition MM_DENSE_STR := chars "array".
Definition MM_SPARSE_STR := chars "coordinate".
Definition MM_COMPLEX_STR := chars "complex".
Definition MM_REAL_STR := chars "real".
Definition MM_INT_STR := chars "integer".
Definition MM_GENERAL_STR := chars "general".
Definition MM_SYMM_STR := chars "symmetric".
Definition MM_HERM_STR := chars "hermitian".
Definition MM_SKEW_STR := chars "skew-symmetric".
Definition MM_PATTERN_STR := chars "pattern".

(** * mmio.cpp *)

(** mm_is_valid (75-83) *)
Definition mm_is_valid (t : typecode) : bool :=
  if negb (mm_is_matrix t) then false
  else if mm_is_dense t && mm_is_pattern t then false
  else if mm_is_real t && mm_is_hermitian t then false
  else if mm_is_pattern t && (mm_is_hermitian t || mm_is_skew t) then false
  else true.

(** mm_read_banner (85-161): the code, the type and the rest of the file *)
Definition mm_read_banner (f : text) : res (Z * typecode * text) :=
  let t := mm_clear_typecode in
  match fgets MM_MAX_LINE_LENGTH f with
  | None => Ok (MM_PREMATURE_EOF, t, f)
  | Some (line, f) =>
      ws <- scan_words 5 MM_MAX_TOKEN_LENGTH line ;;
      match ws with
      | [banner; mtx; crd; data_type; storage_scheme] =>
          let mtx := lower mtx in let crd := lower crd in
          let data_type := lower data_type in let storage_scheme := lower storage_scheme in
          if negb (text_eqb (firstn (length MatrixMarketBanner) banner) MatrixMarketBanner) then Ok (MM_NO_HEADER, t, f)
          else if negb (text_eqb mtx MM_MTX_STR) then Ok (MM_UNSUPPORTED_TYPE, t, f)
          else
            let t := set0 "M" t in
            let '(ok, t) := if text_eqb crd MM_SPARSE_STR then (true, set1 "C" t)
                            else if text_eqb crd MM_DENSE_STR then (true, set1 "A" t) else (false, t) in
            if negb ok then Ok (MM_UNSUPPORTED_TYPE, t, f)
            else
              let '(ok, t) := if text_eqb data_type MM_REAL_STR then (true, set2 "R" t)
                              else if text_eqb data_type MM_COMPLEX_STR then (true, set2 "C" t)
                              else if text_eqb data_type MM_PATTERN_STR then (true, set2 "P" t)
                              else if text_eqb data_type MM_INT_STR then (true, set2 "I" t) else (false, t) in
              if negb ok then Ok (MM_UNSUPPORTED_TYPE, t, f)
              else
                let '(ok, t) := if text_eqb storage_scheme MM_GENERAL_STR then (true, set3 "G" t)
                                else if text_eqb storage_scheme MM_SYMM_STR then (true, set3 "S" t)
                                else if text_eqb storage_scheme MM_HERM_STR then (true, set3 "H" t)
                                else if text_eqb storage_scheme MM_SKEW_STR then (true, set3 "K" t) else (false, t) in
                if negb ok then Ok (MM_UNSUPPORTED_TYPE, t, f) else Ok (0%Z, t, f)
      | _ => Ok (MM_PREMATURE_EOF, t, f)
      end
  end.

(** mm_typecode_to_str (403-450): [None] is NULL; without the letter M types[0] is never set and sprintf reads it *)
Definition mm_typecode_to_str (t : typecode) : res (option text) :=
  match (if mm_is_sparse t then Some MM_SPARSE_STR else if mm_is_dense t then Some MM_DENSE_STR else None) with
  | None => Ok None
  | Some s1 =>
  match (if mm_is_real t then Some MM_REAL_STR else if mm_is_complex t then Some MM_COMPLEX_STR
         else if mm_is_pattern t then Some MM_PATTERN_STR else if mm_is_integer t then Some MM_INT_STR else None) with
  | None => Ok None
  | Some s2 =>
  match (if mm_is_general t then Some MM_GENERAL_STR else if mm_is_symmetric t then Some MM_SYMM_STR
         else if mm_is_hermitian t then Some MM_HERM_STR else if mm_is_skew t then Some MM_SKEW_STR else None) with
  | None => Ok None
  | Some s3 =>
      if mm_is_matrix t then Ok (Some (MM_MTX_STR ++ [SP] ++ s1 ++ [SP] ++ s2 ++ [SP] ++ s3))%list else Err Uninit
  end end end.

(** mm_write_banner (341-351): the code and the text; printing a NULL string is undefined.  fprintf returns the number
    of characters *)
Definition mm_write_banner (t : typecode) : res (Z * text) :=
  o <- mm_typecode_to_str t ;;
  match o with
  | None => Err Uninit
  | Some str =>
      let out := (MatrixMarketBanner ++ [SP] ++ str ++ [NL])%list in
      Ok (if length out =? 2 then 0%Z else MM_COULD_NOT_WRITE_FILE, out)
  end.

(** mm_write_mtx_crd_size (163-168) *)
Definition mm_write_mtx_crd_size (M N nz : Z) : Z * text :=
  let out := (show_int M ++ [SP] ++ show_int N ++ [SP] ++ show_int nz ++ [NL])%list in
  (if length out =? 3 then 0%Z else MM_COULD_NOT_WRITE_FILE, out).
(** mm_write_mtx_array_size (219-224) *)
Definition mm_write_mtx_array_size (M N : Z) : Z * text :=
  let out := (show_int M ++ [SP] ++ show_int N ++ [NL])%list in
  (if length out =? 2 then 0%Z else MM_COULD_NOT_WRITE_FILE, out).

(** [k] fields %d: the values read, whether the input ended before the first, and the rest *)
Fixpoint scan_ints (k : nat) (f : text) : list Z * bool * text :=
  match k with
  | 0 => ([], false, f)
  | S k => match scan_int f with
           | Got z r => let '(zs, _, r) := scan_ints k r in (z :: zs, false, r)
           | Mismatch r => ([], false, r)
           | AtEof => ([], true, [])
           end
  end.

(** the values of the variables after some of them have been assigned *)
Definition assign (vars zs : list Z) : list Z := (zs ++ skipn (length zs) vars)%list.

(** 178-181, 203-206: the first line that does not start with a per cent sign *)
Fixpoint skip_comments (fuel : nat) (f : text) : res (option (text * text)) :=
  match fuel with
  | 0 => Err Fuel
  | S fuel => match fgets MM_MAX_LINE_LENGTH f with
              | None => Ok None
              | Some (line, f) => c <- rd (line ++ ["000"%char])%list 0 ;; if is c "%" then skip_comments fuel f else Ok (Some (line, f))
              end
  end.

(** mm_read_mtx_crd_size (170-194) with three variables, mm_read_mtx_array_size (197-217) with two: the code, the
    variables and the rest; [fuel] bounds the iterations of the last loop *)
Definition read_sizes (vars fuel : nat) (f : text) : res (Z * list Z * text) :=
  let V := repeat 0%Z vars in
  o <- skip_comments (S (length f)) f ;;
  match o with
  | None => Ok (MM_PREMATURE_EOF, V, [])
  | Some (line, f) =>
      let '(zs, _, _) := scan_ints vars line in
      if length zs =? vars then Ok (0%Z, assign V zs, f)
      else
        (fix loop (fuel : nat) (V : list Z) (f : text) : res (Z * list Z * text) :=
           match fuel with
           | 0 => Err Fuel
           | S fuel =>
               let '(zs, eof, f) := scan_ints vars f in
               if eof then Ok (MM_PREMATURE_EOF, V, f)
               else if length zs =? vars then Ok (0%Z, assign V zs, f) else loop fuel (assign V zs) f
           end) fuel (assign V zs) f
  end.
Definition mm_read_mtx_crd_size := read_sizes 3.
Definition mm_read_mtx_array_size := read_sizes 2.

Section Values.
Context {V : Type}.
Variable scan_dbl : text -> scan V.     (* %lg *)
Variable show_dbl : V -> text.          (* %20.16g *)

(** the fields of a format *)
Inductive field := FInt | FDbl.
Inductive item := VInt (z : Z) | VDbl (v : V).

(** fscanf: the items read, the number returned (-1 at the end of the file) and the rest *)
Fixpoint scan_fields (fs : list field) (f : text) : list item * bool * text :=
  match fs with
  | [] => ([], false, f)
  | FInt :: fs => match scan_int f with
      | Got z r => let '(zs, _, r) := scan_fields fs r in (VInt z :: zs, false, r)
      | Mismatch r => ([], false, r)
      | AtEof => ([], true, [])
      end
  | FDbl :: fs => match scan_dbl f with
      | Got z r => let '(zs, _, r) := scan_fields fs r in (VDbl z :: zs, false, r)
      | Mismatch r => ([], false, r)
      | AtEof => ([], true, [])
      end
  end.
(** [ws]: the format ends with white space, which is skipped if all fields have been read *)
Definition fscanf (fs : list field) (ws : bool) (f : text) : list item * text :=
  let '(l, _, r) := scan_fields fs f in (l, if ws && (length l =? length fs) then skip_ws r else r).

(** arrays from malloc: [None] is a cell that has not been written *)
Notation ints := (list (option Z)).
Notation dbls := (list (option V)).
Definition wr_int (a : ints) (i : nat) (l : list item) (k : nat) : res ints :=
  match nth_error l k with Some (VInt z) => wr a i (Some z) | _ => Ok a end.
Definition wr_dbl (a : dbls) (i : nat) (l : list item) (k : nat) : res dbls :=
  match nth_error l k with Some (VDbl z) => wr a i (Some z) | _ => Ok a end.

(** mm_read_mtx_crd_data (234-258): the code, the arrays and the rest *)
Definition crd_loop (nz : nat) (fs : list field) (ws : bool) (dst : nat -> list nat) (Is Js : ints) (x : dbls) (f : text)
    : res (Z * ints * ints * dbls * text) :=
  '(code, Is, Js, x, f) <- forb_ 0 nz (fun i '(_, Is, Js, x, f) =>
      let '(l, f) := fscanf fs ws f in
      Is <- wr_int Is i l 0 ;; Js <- wr_int Js i l 1 ;;
      x <- foreach (combine (dst i) (seq 2 (length (dst i)))) (fun '(d, k) x => wr_dbl x d l k) x ;;
      if length l =? length fs then Ok (false, (0%Z, Is, Js, x, f)) else Ok (true, (MM_PREMATURE_EOF, Is, Js, x, f)))
    (0%Z, Is, Js, x, f) ;;
  Ok (code, Is, Js, x, f).

Definition mm_read_mtx_crd_data (nz : nat) (Is Js : ints) (x : dbls) (t : typecode) (f : text) : res (Z * ints * ints * dbls * text) :=
  if mm_is_complex t then crd_loop nz [FInt; FInt; FDbl; FDbl] false (fun i => [2 * i; 2 * i + 1]) Is Js x f
  else if mm_is_real t then crd_loop nz [FInt; FInt; FDbl] true (fun i => [i]) Is Js x f
  else if mm_is_pattern t then crd_loop nz [FInt; FInt] false (fun _ => []) Is Js x f
  else Ok (MM_UNSUPPORTED_TYPE, Is, Js, x, f).

(** what mm_read_mtx_crd leaves in its output arguments; [cval] is [None] for the null pointer *)
Record crd := mkCrd { cM : Z; cN : Z; cnz : Z; cI : ints; cJ : ints; cval : option dbls; ctype : typecode }.

(** mm_read_mtx_crd (294-339); [None] is a file that cannot be opened.  The result is the code and, where the arrays
    have been allocated, the outputs *)
Definition mm_read_mtx_crd (fuel : nat) (file : option text) : res (Z * option crd) :=
  match file with
  | None => Ok (MM_COULD_NOT_READ_FILE, None)
  | Some f =>
      '(code, t, f) <- mm_read_banner f ;;
      if negb (code =? 0)%Z then Ok (code, None)
      else if negb (mm_is_valid t && mm_is_sparse t && mm_is_matrix t) then Ok (MM_UNSUPPORTED_TYPE, None)
      else
        '(code, vars, f) <- mm_read_mtx_crd_size fuel f ;;
        if negb (code =? 0)%Z then Ok (code, None)
        else
          let M := nth 0 vars 0%Z in let N := nth 1 vars 0%Z in let nz := nth 2 vars 0%Z in
          let k := Z.to_nat nz in
          let Is := repeat None k in let Js := repeat None k in
          if mm_is_complex t then
            '(code, Is, Js, x, f) <- mm_read_mtx_crd_data k Is Js (repeat None (2 * k)) t f ;; Ok (code, Some (mkCrd M N nz Is Js (Some x) t))
          else if mm_is_real t then
            '(code, Is, Js, x, f) <- mm_read_mtx_crd_data k Is Js (repeat None k) t f ;; Ok (code, Some (mkCrd M N nz Is Js (Some x) t))
          else if mm_is_pattern t then
            '(code, Is, Js, x, f) <- mm_read_mtx_crd_data k Is Js [] t f ;; Ok (code, Some (mkCrd M N nz Is Js None t))
          else Ok (0%Z, Some (mkCrd M N nz Is Js None t))
  end.

(** mm_read_unsymmetric_sparse (15-73): the results of fscanf are not looked at; decrementing a cell that has not been
    written is [Err Uninit] *)
Definition dec_cell (a : ints) (i : nat) : res ints :=
  z <- rd a i ;; match z with Some z => wr a i (Some (z - 1)%Z) | None => Err Uninit end.
Definition mm_read_unsymmetric_sparse (fuel : nat) (file : option text) : res (Z * option crd) :=
  match file with
  | None => Ok ((-1)%Z, None)
  | Some f =>
      '(code, t, f) <- mm_read_banner f ;;
      if negb (code =? 0)%Z then Ok ((-1)%Z, None)
      else if negb (mm_is_real t && mm_is_matrix t && mm_is_sparse t) then _ <- mm_typecode_to_str t ;; Ok ((-1)%Z, None)
      else
        '(code, vars, f) <- mm_read_mtx_crd_size fuel f ;;
        if negb (code =? 0)%Z then Ok ((-1)%Z, None)
        else
          let M := nth 0 vars 0%Z in let N := nth 1 vars 0%Z in let nz := nth 2 vars 0%Z in
          let k := Z.to_nat nz in
          '(Is, Js, x, f) <- for_ 0 k (fun i '(Is, Js, x, f) =>
              let '(l, f) := fscanf [FInt; FInt; FDbl] true f in
              Is <- wr_int Is i l 0 ;; Js <- wr_int Js i l 1 ;; x <- wr_dbl x i l 2 ;;
              Is <- dec_cell Is i ;; Js <- dec_cell Js i ;;
              Ok (Is, Js, x, f)) (repeat None k, repeat None k, repeat None k, f) ;;
          Ok (0%Z, Some (mkCrd M N nz Is Js (Some x) t))
  end.

(** mm_write_mtx_crd (353-388): the code and the text; the return values of fprintf are not looked at *)
Definition mm_write_mtx_crd (M N nz : Z) (Is Js : list Z) (x : list V) (t : typecode) : res (Z * text) :=
  o <- mm_typecode_to_str t ;;
  match o with
  | None => Err Uninit
  | Some str =>
      let head := (MatrixMarketBanner ++ [SP] ++ str ++ [NL] ++ show_int M ++ [SP] ++ show_int N ++ [SP] ++ show_int nz ++ [NL])%list in
      let k := Z.to_nat nz in
      let line i (rest : text) out :=
        match nth_error Is i, nth_error Js i with
        | Some a, Some b => Ok (out ++ show_int a ++ [SP] ++ show_int b ++ rest)%list
        | _, _ => Err OOB
        end in
      if mm_is_pattern t then
        out <- for_ 0 k (fun i out => line i [NL] out) head ;; Ok (0%Z, out)
      else if mm_is_real t then
        out <- for_ 0 k (fun i out => match nth_error x i with Some v => line i ([SP] ++ show_dbl v ++ [NL])%list out | None => Err OOB end) head ;;
        Ok (0%Z, out)
      else if mm_is_complex t then
        out <- for_ 0 k (fun i out => match nth_error x (2 * i), nth_error x (2 * i + 1) with
                                      | Some v, Some w => line i ([SP] ++ show_dbl v ++ [SP] ++ show_dbl w ++ [NL])%list out
                                      | _, _ => Err OOB end) head ;;
        Ok (0%Z, out)
      else Ok (MM_UNSUPPORTED_TYPE, head)
  end.

(** mm_read_mtx_crd_entry (260-281): the code, the items that were assigned and the rest *)
Definition mm_read_mtx_crd_entry (t : typecode) (f : text) : Z * list item * text :=
  let go fs ws := let '(l, f) := fscanf fs ws f in (if length l =? length fs then 0%Z else MM_PREMATURE_EOF, l, f) in
  if mm_is_complex t then go [FInt; FInt; FDbl; FDbl] false
  else if mm_is_real t then go [FInt; FInt; FDbl] true
  else if mm_is_pattern t then go [FInt; FInt] false
  else (MM_UNSUPPORTED_TYPE, [], f).
End Values.
Arguments VInt {V}. Arguments VDbl {V}.
