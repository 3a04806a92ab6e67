(** Model of the dense output of a matrix, of the array files, of the writer of blocked matrices and of the string helpers of the
    readers. *)
From Coq Require Import String Ascii.
From Verif Require Import Base M_Super.
Local Open Scope list_scope.

Section Dense.
Context {V : Type} {DV : Dflt V}.

(** utils/sparse_utilities.cpp 741: std::fill_n(D, k, 0) on an array *)
Definition fill_zero (D : list V) (k : nat) : res (list V) := for_ 0 k (fun i D => wr D i dflt) D.

(** 739-751: sparse2dense.  [D] is the memory behind the pointer; zero is the default value *)
Definition sparse2dense (m n : nat) (Ap Ai : list nat) (Ax : list V) (stype : Z) (D : list V) : res (list V) :=
  D <- fill_zero D (n * m) ;;
  for_ 0 n (fun i D => a <- rd Ap i ;; b <- rd Ap (S i) ;;
    for_ a b (fun j D =>
      r <- rd Ai j ;; x <- rd Ax j ;;
      D <- wr D (i * m + r) x ;;
      if ((stype =? -1) || (stype =? 1))%Z then wr D (r * n + i) x else Ok D) D) D.

(** utils/sparse_io.cpp 85-112: BCSC_to_mtx.  The size line and the lines of the file: row, column, value; [round] is printing
    with three significant digits *)
Definition BCSC_to_mtx (round : V -> V) (m n : nat) (M : @bcsc V) : res (nat * nat * nat * list (nat * nat * V)) :=
  out <- for_ 0 (b_nodes M) (fun i out =>
      index <- rd (b_p M) i ;;
      s1 <- rd (b_super M) (S i) ;; s0 <- rd (b_super M) i ;;
      let width := s1 - s0 in
      e <- rd (b_p M) (S i) ;;
      if width =? 0 then Err DivZero else
      let nrows := (e - index) / width in
      for_ 0 width (fun j out => for_ 0 nrows (fun k out =>
        let pos := index + j * nrows + k in
        r <- rd (b_i M) pos ;; x <- rd (b_x M) pos ;;
        Ok (out ++ [(r + 1, s0 + j + 1, round x)])) out) out) [] ;;
  Ok (m, n, b_nnz M, out).

(** 438: in_file >> x.  The rest of the file is a list of words; a word that is no number is [None].  The state is the words not yet
    read and the fail bit.  A word that is no number sets the fail bit and stores 0; nothing is stored when the stream has failed or
    is at its end. *)
Definition extract (st : list (option V) * bool) : option V * (list (option V) * bool) :=
  let '(ws, fail) := st in
  if (fail : bool) then (None, st) else
  match ws with
  | [] => (None, ([], true))
  | None :: r => (Some dflt, (r, true))
  | Some v :: r => (Some v, (r, false))
  end.

(** include/aggregation/def.h 282-292: Dense(M, N, LDA): row * col zeros *)
Definition new_dense (m n : nat) : list V := if (0 <? m) && (0 <? n) then repeat dflt (m * n) else [].

(** 426-441: read_mtx_array_real after the header: the flags tell that the header said real and array.  Sizes are not negative. *)
Definition read_array (real array : bool) (m n : nat) (ws : list (option V)) : res (list V) :=
  if negb real then Err Throw else
  if negb array then Err Throw else
  '(a, _) <- for_ 0 (m * n) (fun i '(a, st) =>
      let '(o, st) := extract st in
      a <- match o with Some v => wr a i v | None => Ok a end ;; Ok (a, st)) (new_dense m n, (ws, false)) ;;
  Ok a.

(** 201-208: print_dense: the numbers of each line *)
Definition print_dense (row col : nat) (a : list V) : res (list (list V)) :=
  for_ 0 row (fun i out =>
    l <- for_ 0 col (fun j l => x <- rd a (i + j * row) ;; Ok (l ++ [x])) [] ;;
    Ok (out ++ [l])) [].
End Dense.

(** * Strings *)

(** std::isspace in the C locale *)
Definition isspace (c : ascii) : bool := let k := nat_of_ascii c in ((9 <=? k) && (k <=? 13)) || (k =? 32).

(** include/aggregation/utils.h 89-93: the first character that is no space *)
Fixpoint ltrim (s : string) : string :=
  match s with
  | EmptyString => EmptyString
  | String c r => if isspace c then ltrim r else s
  end.

(** 96-100: erase from behind the last character that is no space: the search runs over the reversed string *)
Fixpoint rev_string (s acc : string) : string :=
  match s with EmptyString => acc | String c r => rev_string r (String c acc) end.
Definition rtrim (s : string) : string := rev_string (ltrim (rev_string s EmptyString)) EmptyString.

(** 103-106 *)
Definition trim (s : string) : string := rtrim (ltrim s).

(** std::string::compare(0, k, t) <> 0 for k = length of t *)
Definition starts_with (t s : string) : bool := String.eqb (substring 0 (String.length t) s) t.

(** A stream: lines not yet read, eof bit, fail bit.  [nl]: the file ends with a newline *)
Definition stream := (list string * bool * bool)%type.
Definition eofbit (st : stream) : bool := let '(_, e, _) := st in e.

(** std::getline; a failed call by the sentry (line is not touched) or at the end of the file (line is erased) sets the fail bit *)
Definition getline_s (nl : bool) (line : string) (st : stream) : string * stream :=
  let '(ls, eof, fail) := st in
  if eof || fail then (line, (ls, eof, true)) else
  match ls with
  | [] => (EmptyString, ([], true, true))
  | [l] => (l, ([], negb nl, false))
  | l :: r => (l, (r, false, false))
  end.

(** seekg(pos) clears the eof bit and does nothing else when the fail bit is set.  [pos] are the lines not read at that position *)
Definition seekg (pos : list string) (st : stream) : stream :=
  let '(ls, _, fail) := st in if fail : bool then (ls, false, fail) else (pos, false, fail).

Definition newline : string := String (ascii_of_nat 10) EmptyString.

(** utils/sparse_io.cpp 478-496: read_string.  The state is line, context, stream and "left by break" *)
Definition read_string (fuel : nat) (nl : bool) (indent context : string) (st : stream) : res (string * stream) :=
  '(_, context, st, _) <- while_ fuel
    (fun '(line, context, st, brk) => Ok (negb brk && negb (eofbit st)))
    (fun '(line, context, st, brk) =>
      let '(pos, _, _) := st in
      let '(line, st) := getline_s nl line st in
      if negb (starts_with indent line) then
        match line with
        | String "-" _ => Ok (line, context, st, false)
        | _ => Ok (line, context, seekg pos st, true)
        end
      else let line := String.append (ltrim line) newline in Ok (line, String.append context line, st, false)) (EmptyString, context, st, false) ;;
  Ok (context, st).
