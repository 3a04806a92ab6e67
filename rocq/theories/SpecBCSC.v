(** Block structures: what the blocked functions need of their arguments, and the graph of the blocks. *)
From Verif Require Import Base Lib Spec.

(** [nb] blocks of consecutive columns; block [s] has the columns b2c[s] .. b2c[s+1]-1, c2b gives the block of a column.
    The rows of a block start at Lip of its first column: first its own columns, then rows below the block. *)
Record blk_ok (nb : nat) (b2c c2b Lip Li : list nat) : Prop := {
  bk_b2c : nb < length b2c;
  bk_0 : b2c.[0] = 0;
  bk_inc : forall s, s < nb -> b2c.[s] < b2c.[S s];
  bk_c2b : b2c.[nb] <= length c2b;
  bk_of : forall s c, s < nb -> b2c.[s] <= c < b2c.[S s] -> c2b.[c] = s;
  bk_lip : b2c.[nb] < length Lip;
  bk_room : forall s, s < nb -> Lip.[b2c.[s]] + (b2c.[S s] - b2c.[s]) <= Lip.[b2c.[S s]];
  bk_li : Lip.[b2c.[nb]] <= length Li;
  bk_own : forall s t, s < nb -> t < b2c.[S s] - b2c.[s] -> Li.[Lip.[b2c.[s]] + t] = b2c.[s] + t;
  bk_row : forall s r, s < nb -> Lip.[b2c.[s]] + (b2c.[S s] - b2c.[s]) <= r < Lip.[b2c.[S s]] -> b2c.[S s] <= Li.[r] < b2c.[nb];
  bk_mid : forall s c, s < nb -> b2c.[s] <= c < b2c.[S s] -> Lip.[b2c.[s]] <= Lip.[c] <= Lip.[b2c.[s]] + (b2c.[S s] - b2c.[s]) }.

(** block [t] has a row in block [s] below its own columns: [t] needs [s] *)
Definition bedge (nb : nat) (b2c c2b Lip Li : list nat) (s t : nat) : Prop :=
  s < nb /\ exists r, Lip.[b2c.[s]] + (b2c.[S s] - b2c.[s]) <= r < Lip.[b2c.[S s]] /\ c2b.[Li.[r]] = t.

(** two blocks that need the same block are on one path: true for forests and for the pattern of a Cholesky factor,
    where the larger of the two needs the smaller *)
Definition successors_on_path (E : nat -> nat -> Prop) : Prop :=
  forall u v w, E u v -> E u w -> exists k, chain E v w k \/ chain E w v k.

(** executable test of [blk_ok] *)
Definition blk_okb (nb : nat) (b2c c2b Lip Li : list nat) : bool :=
  (nb <? length b2c) && (b2c.[0] =? 0) && (b2c.[nb] <=? length c2b) && (b2c.[nb] <? length Lip) && (Lip.[b2c.[nb]] <=? length Li) &&
  forallb (fun s =>
    let a := b2c.[s] in let b := b2c.[S s] in
    (a <? b) && forallb (fun c => (c2b.[c] =? s) && (Lip.[a] <=? Lip.[c]) && (Lip.[c] <=? Lip.[a] + (b - a))) (seq a (b - a)) &&
    (Lip.[a] + (b - a) <=? Lip.[b]) && forallb (fun t => Li.[Lip.[a] + t] =? a + t) (seq 0 (b - a)) &&
    forallb (fun r => (b <=? Li.[r]) && (Li.[r] <? b2c.[nb])) (seq (Lip.[a] + (b - a)) (Lip.[b] - (Lip.[a] + (b - a))))) (seq 0 nb).

Lemma blk_okb_ok nb b2c c2b Lip Li : blk_okb nb b2c c2b Lip Li = true -> blk_ok nb b2c c2b Lip Li.
Proof.
  unfold blk_okb. rewrite !andb_true_iff, forallb_forall. intros (((((A1 & A2) & A3) & A4) & A5) & A6).
  apply Nat.ltb_lt in A1, A4. apply Nat.eqb_eq in A2. apply Nat.leb_le in A3, A5.
  assert (G : forall s, s < nb -> let a := b2c.[s] in let b := b2c.[S s] in a < b /\
     (forall c, a <= c < b -> c2b.[c] = s /\ Lip.[a] <= Lip.[c] <= Lip.[a] + (b - a)) /\
     Lip.[a] + (b - a) <= Lip.[b] /\ (forall t, t < b - a -> Li.[Lip.[a] + t] = a + t) /\
     (forall r, Lip.[a] + (b - a) <= r < Lip.[b] -> b <= Li.[r] < b2c.[nb])).
  { intros s Hs a b. specialize (A6 s ltac:(apply in_seq; lia)). cbv zeta in A6. fold a b in A6.
    rewrite !andb_true_iff, !forallb_forall in A6. destruct A6 as ((((B1 & B2) & B3) & B4) & B5).
    apply Nat.ltb_lt in B1. apply Nat.leb_le in B3. splits; auto.
    - intros c Hc. specialize (B2 c ltac:(apply in_seq; lia)). rewrite !andb_true_iff, Nat.eqb_eq, !Nat.leb_le in B2. lia.
    - intros t Ht. apply Nat.eqb_eq. apply B4. apply in_seq. lia.
    - intros r Hr. specialize (B5 r ltac:(apply in_seq; lia)). rewrite !andb_true_iff, Nat.leb_le, Nat.ltb_lt in B5. lia. }
  constructor; auto.
  - intros s Hs. now apply G.
  - intros s c Hs Hc. now apply (G s Hs).
  - intros s Hs. now apply (G s Hs).
  - intros s t Hs Ht. now apply (G s Hs).
  - intros s r Hs Hr. now apply (G s Hs).
  - intros s c Hs Hc. now apply (G s Hs).
Qed.
