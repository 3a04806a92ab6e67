(** The entries of the transposed triangle as a list. *)
From Coq Require Import ZifyBool ZifyNat.
From Verif Require Import Base Lib Lib2 Lib3 Spec SpecMat SpecSym M_Mat M_Sym L_Mat L_Mat2 L_Mat3 L_Sym L_Sym2.

Lemma flat_map_perm_ext {A B} (f g : A -> list B) l : (forall a, In a l -> Permutation (f a) (g a)) -> Permutation (flat_map f l) (flat_map g l).
Proof.
  induction l as [|a l IH]; intros H; [constructor|]. cbn [flat_map]. apply Permutation_app; [apply H; now left|]. apply IH. intros b Hb. apply H. now right.
Qed.

Lemma flat_map_nil {A B} (f : A -> list B) l : (forall a, In a l -> f a = []) -> flat_map f l = [].
Proof. induction l as [|a l IH]; intros H; [reflexivity|]. cbn [flat_map]. rewrite H by now left. apply IH. intros b Hb. apply H. now right. Qed.

Lemma flat_map_app_perm {A B} (f g : A -> list B) l : Permutation (flat_map (fun a => f a ++ g a) l) (flat_map f l ++ flat_map g l).
Proof.
  induction l as [|a l IH]; [constructor|]. cbn [flat_map]. rewrite <- !app_assoc. apply Permutation_app_head.
  rewrite IH. rewrite !app_assoc. apply Permutation_app_tail. apply Permutation_app_comm.
Qed.

(** buckets by key hold everything once *)
Lemma buckets_all {A} (key : A -> nat) n l : (forall a, In a l -> key a < n) ->
  Permutation (flat_map (fun c => filter (fun a => key a =? c) l) (seq 0 n)) l.
Proof.
  induction l as [|a l IH]; intros H.
  - rewrite flat_map_nil; auto.
  - pose proof (H a (or_introl eq_refl)) as Ha.
    transitivity (flat_map (fun c => (if key a =? c then [a] else []) ++ filter (fun a => key a =? c) l) (seq 0 n)).
    { apply flat_map_perm_ext. intros c _. cbn [filter]. destruct (key a =? c); reflexivity. }
    rewrite flat_map_app_perm. rewrite IH by (intros b Hb; apply H; now right).
    replace (flat_map (fun c => if key a =? c then [a] else []) (seq 0 n)) with [a]; [reflexivity|].
    replace n with (key a + S (n - S (key a))) by lia. rewrite seq_app, flat_map_app. cbn [seq flat_map Nat.add]. rewrite Nat.eqb_refl.
    rewrite (flat_map_nil _ (seq 0 (key a))). 2:{ intros c Hc. apply in_seq in Hc. now replace (key a =? c) with false by lia. }
    rewrite (flat_map_nil _ (seq (S (key a)) _)). 2:{ intros c Hc. apply in_seq in Hc. now replace (key a =? c) with false by lia. }
    reflexivity.
Qed.

Lemma triples_ext {V} n (f g : nat -> list (nat * V)) : (forall c, c < n -> f c = g c) -> triples n f = triples n g.
Proof. intros H. unfold triples. apply flat_map_ext_in. intros c Hc. apply in_seq in Hc. now rewrite H by lia. Qed.

Lemma positions_ext {V W} n (f : nat -> list (nat * V)) (g : nat -> list (nat * W)) : (forall c, c < n -> map fst (f c) = map fst (g c)) ->
  map position (triples n f) = map position (triples n g).
Proof.
  intros H. unfold triples. rewrite !map_flat_map. apply flat_map_ext_in. intros c Hc. apply in_seq in Hc. rewrite !map_map. unfold position. cbn [fst].
  transitivity (map (fun r => (r, c)) (map fst (f c))); [now rewrite map_map|]. rewrite H by lia. now rewrite map_map.
Qed.

Section Entries.
Context {V : Type} {DV : Dflt V}.
Variables (n : nat) (upper : bool) (q qi : nat -> nat).
Hypothesis PP : perm_pair n q qi.

Lemma filter_flat_map_if {A B} (p : A -> bool) (f : A -> B) l : map f (filter p l) = flat_map (fun a => if p a then [f a] else []) l.
Proof. induction l as [|a l IH]; [reflexivity|]. cbn [filter flat_map]. destruct (p a); cbn [map app]; now rewrite IH. Qed.

Lemma perm_seq2 : Permutation (map q (seq 0 n)) (seq 0 n).
Proof.
  destruct PP as [P1 P2]. apply NoDup_Permutation_bis.
  - apply nodup_map_inj; [apply seq_NoDup|]. intros i j Hi Hj E. apply in_seq in Hi, Hj.
    rewrite <- (proj2 (P1 i ltac:(lia))), <- (proj2 (P1 j ltac:(lia))). now rewrite E.
  - now rewrite map_length, !seq_length.
  - intros x Hx. apply in_map_iff in Hx. destruct Hx as (j & <- & Hj). apply in_seq in Hj. apply in_seq. specialize (P1 j ltac:(lia)). lia.
Qed.

(** one event per entry of the triangle *)
Definition one (j : nat) (e : nat * V) : list (nat * (nat * V)) :=
  if (if upper then fst e <=? q j else q j <=? fst e) then
    [(if upper then Nat.min (qi (fst e)) j else Nat.max (qi (fst e)) j, (if upper then Nat.max (qi (fst e)) j else Nat.min (qi (fst e)) j, snd e))] else [].

Lemma sym_triples (cols : nat -> list (nat * V)) : (forall c e, c < n -> In e (cols c) -> fst e < n) ->
  Permutation (triples n (sym_col upper n q qi cols)) (map (rename (negb upper) qi) (tri_triples upper n cols)).
Proof.
  intros HC. set (evl := flat_map (fun j => flat_map (one j) (cols (q j))) (seq 0 n)).
  assert (EC : forall c, sym_col upper n q qi cols c = map snd (filter (fun e => fst e =? c) evl)).
  { intros c. unfold evl, sym_col. rewrite filter_flat_map, map_flat_map. apply flat_map_ext. intros j. rewrite filter_flat_map, map_flat_map. apply flat_map_ext.
    intros e. unfold one. destruct (if upper then fst e <=? q j else q j <=? fst e); [|reflexivity]. cbn [filter fst].
    destruct ((if upper then Nat.min (qi (fst e)) j else Nat.max (qi (fst e)) j) =? c); reflexivity. }
  assert (EK : forall x, In x evl -> fst x < n).
  { intros x Hx. unfold evl in Hx. apply in_flat_map in Hx. destruct Hx as (j & Hj & Hx). apply in_seq in Hj. apply in_flat_map in Hx. destruct Hx as (e & He & Hx).
    destruct PP as [P1 P2]. destruct (P1 j ltac:(lia)) as [Q1 Q2]. pose proof (HC (q j) e Q1 He) as Hf. destruct (P2 (fst e) Hf) as [Q3 _].
    unfold one in Hx. destruct (if upper then fst e <=? q j else q j <=? fst e); [|easy]. destruct Hx as [<-|[]]. cbn [fst]. destruct upper; lia. }
  set (G := fun x : nat * (nat * V) => (fst (snd x), fst x, snd (snd x))).
  transitivity (map G evl).
  - unfold triples. transitivity (flat_map (fun c => map G (filter (fun x => fst x =? c) evl)) (seq 0 n)).
    + erewrite flat_map_ext_in; [reflexivity|]. intros c Hc. cbv beta. rewrite EC, map_map. apply map_ext_in. intros x Hx. apply filter_In in Hx. unfold G.
      now replace c with (fst x) by lia.
    + rewrite <- map_flat_map. apply Permutation_map. apply (buckets_all fst n evl EK).
  - set (Hf := fun c => flat_map (fun e => if (if upper then fst e <=? c else c <=? fst e) then [rename (negb upper) qi (fst e, c, snd e)] else []) (cols c)).
    transitivity (flat_map Hf (map q (seq 0 n))).
    + unfold evl. rewrite map_flat_map, flat_map_map. erewrite flat_map_ext_in; [reflexivity|]. intros j Hj. apply in_seq in Hj. cbv beta.
      rewrite map_flat_map. unfold Hf. apply flat_map_ext. intros e. unfold one. destruct (if upper then fst e <=? q j else q j <=? fst e); [|reflexivity].
      destruct PP as [P1 _]. destruct (P1 j ltac:(lia)) as [_ Q2]. cbn [map]. unfold G, rename. cbn [fst snd]. rewrite Q2. destruct upper; reflexivity.
    + rewrite (Permutation_flat_map Hf perm_seq2). unfold tri_triples, triples. rewrite filter_flat_map, map_flat_map. apply Permutation_refl'.
      apply flat_map_ext. intros c. unfold Hf. rewrite filter_flat_map_if, flat_map_map. apply flat_map_ext. intros e. cbn [fst snd]. reflexivity.
Qed.

(** without permutation: row [c] of the triangle *)
Lemma sym_col_id (cols : nat -> list (nat * V)) c :
  sym_col upper n (fun i => i) (fun i => i) cols c = filter (fun e => if upper then c <=? fst e else fst e <=? c) (row_of n cols c).
Proof.
  unfold sym_col, row_of. rewrite filter_flat_map. apply flat_map_ext. intros j. rewrite filter_map_comm. cbn [fst].
  induction (cols j) as [|e l IH]; [reflexivity|]. cbn [flat_map filter]. rewrite IH. destruct (Nat.eqb_spec (fst e) c) as [E|E].
  - cbn [filter map]. rewrite E. destruct upper.
    + destruct (Nat.leb_spec c j); [|reflexivity]. replace (Nat.min c j) with c by lia. rewrite Nat.eqb_refl. replace (Nat.max c j) with j by lia. reflexivity.
    + destruct (Nat.leb_spec j c); [|reflexivity]. replace (Nat.max c j) with c by lia. rewrite Nat.eqb_refl. replace (Nat.min c j) with j by lia. reflexivity.
  - destruct upper.
    + destruct (Nat.leb_spec (fst e) j); [|reflexivity]. now replace (Nat.min (fst e) j =? c) with false by lia.
    + destruct (Nat.leb_spec j (fst e)); [|reflexivity]. now replace (Nat.max (fst e) j =? c) with false by lia.
Qed.
End Entries.

Lemma nondecreasing_fst {V W} (l : list (nat * V)) : forall (l' : list (nat * W)), map fst l = map fst l' -> nondecreasing l -> nondecreasing l'.
Proof.
  induction l as [|e l IH]; intros [|e' l'] E H; try discriminate; [constructor|]. cbn [map] in E. injection E as E1 E2. destruct H as [H1 H2]. split; [|now apply IH].
  intros x Hx. apply (in_map fst) in Hx. rewrite <- E2 in Hx. apply in_map_iff in Hx. destruct Hx as (y & Ey & Hy). rewrite <- E1, <- Ey. auto.
Qed.

Lemma nondecreasing_filter {V} (p : nat * V -> bool) l : nondecreasing l -> nondecreasing (filter p l).
Proof.
  induction l as [|e l IH]; intros H; [constructor|]. destruct H as [H1 H2]. cbn [filter]. destruct (p e); [|auto]. split; [|auto].
  intros x Hx. apply filter_In in Hx. now apply H1.
Qed.

Lemma Permutation_filter {A} (p : A -> bool) l l' : Permutation l l' -> Permutation (filter p l) (filter p l').
Proof.
  induction 1 as [|a l l' _ IH|a b l|l1 l2 l3 _ IH1 _ IH2]; cbn [filter]; auto.
  - destruct (p a); auto.
  - destruct (p a), (p b); auto. apply perm_swap.
  - now transitivity (filter p l2).
Qed.
