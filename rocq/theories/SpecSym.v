(** Spec for symmetric matrices of which one triangle is stored. *)
From Verif Require Export SpecMat.

(** [q] permutes [0..n) and [qi] is its inverse *)
Definition perm_pair (n : nat) (q qi : nat -> nat) : Prop :=
  (forall j, j < n -> q j < n /\ qi (q j) = j) /\ (forall i, i < n -> qi i < n /\ q (qi i) = i).

(** column [c] of the other triangle of the symmetric matrix P A P' (new index [j] is old index
    [q j]); the entries of A outside its triangle do not count *)
Definition sym_col {V} (upper : bool) (n : nat) (q qi : nat -> nat) (cols : nat -> list (nat * V)) (c : nat) : list (nat * V) :=
  flat_map (fun j => flat_map (fun e =>
      if (if upper then fst e <=? q j else q j <=? fst e) then
        if (if upper then Nat.min (qi (fst e)) j else Nat.max (qi (fst e)) j) =? c
        then [(if upper then Nat.max (qi (fst e)) j else Nat.min (qi (fst e)) j, snd e)] else []
      else []) (cols (q j))) (seq 0 n).

(** the values stored at row [i] of a column *)
Definition vals_at {V} (i : nat) (l : list (nat * V)) : list V := map snd (filter (fun e => fst e =? i) l).

(** sum of a non-empty list, from the left *)
Definition fsum {V} (add : V -> V -> V) (l : list V) (d : V) : V :=
  match l with [] => d | v :: t => fold_left add t v end.

(** the entry is strictly before: indices increase along a column *)
Fixpoint increasing {V} (l : list (nat * V)) : Prop :=
  match l with
  | [] => True
  | e :: t => (forall e', In e' t -> fst e < fst e') /\ increasing t
  end.

(** the first [k] entries of [P] are different indices below [n] *)
Definition good_prefix (n : nat) (P : list Z) (k : nat) : Prop :=
  forall a, a < k -> (0 <= P.[a] < Z.of_nat n)%Z /\ forall b, b < a -> P.[b] <> P.[a].

(** all stored entries (row, column, value) *)
Definition triples {V} (n : nat) (cols : nat -> list (nat * V)) : list (nat * nat * V) :=
  flat_map (fun c => map (fun e => (fst e, c, snd e)) (cols c)) (seq 0 n).
Definition position {V} (t : nat * nat * V) : nat * nat := fst t.
(** those in one triangle, diagonal included *)
Definition tri_triples {V} (upper : bool) (n : nat) (cols : nat -> list (nat * V)) : list (nat * nat * V) :=
  filter (fun t => let '(i, j, _) := t in if upper then i <=? j else j <=? i) (triples n cols).
(** rename the indices and put the entry into the given triangle *)
Definition rename {V} (upper : bool) (qi : nat -> nat) (t : nat * nat * V) : nat * nat * V :=
  let '(i, j, v) := t in
  (if upper then Nat.min (qi i) (qi j) else Nat.max (qi i) (qi j), if upper then Nat.max (qi i) (qi j) else Nat.min (qi i) (qi j), v).

(** the summands of a column of alpha A + beta B *)
Definition lin_col {V} (mul : V -> V -> V) (alpha beta : V) (la lb : list (nat * V)) : list (nat * V) :=
  map (fun e => (fst e, mul alpha (snd e))) la ++ map (fun e => (fst e, mul beta (snd e))) lb.
(** [out] has one entry for every index that occurs in [l] *)
Definition same_rows {V} (sorted : bool) (l out : list (nat * V)) : Prop :=
  NoDup (map fst out) /\ (forall i, In i (map fst out) <-> In i (map fst l)) /\ (sorted = true -> increasing out).
(** its values are the sums, from left to right *)
Definition sums {V} {DV : Dflt V} (add : V -> V -> V) (l out : list (nat * V)) : Prop :=
  forall i v, In (i, v) out -> v = fsum add (vals_at i l) dflt.
