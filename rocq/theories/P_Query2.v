(** C126, C131 and C137, continued: the exceptions they name, in general. *)
From Coq Require Import ZifyBool ZifyNat.
From Verif Require Import Base Lib Lib2 Spec SpecMat M_Mat M_TestUtil P_Compare P_Query M_Demo P_Csv.

Section Query2.
Context {V : Type} {DV : Dflt V}.

(** If the last column is empty and the array of rows has no spare cells, the check never succeeds: it stops at a column
    whose first entry is not on the diagonal, or reads behind the array. *)
Theorem C126_empty_last_column : forall A : csc V, wf_csc (cn A) (cp A) (ci A) -> length (ci A) = (cp A).[cn A] -> 0 < cn A ->
  (cp A).[cn A - 1] = (cp A).[cn A] ->
  verify_csc_diagonal A = Err OOB \/
  verify_csc_diagonal A = Ok false /\ exists c, c < cn A /\ (cp A).[c] < (cp A).[cn A] /\ (ci A).[(cp A).[c]] <> c.
Proof.
  intros A (W1 & W2 & W3 & W4 & W5) HL N0 EL. unfold verify_csc_diagonal, forb_. rewrite Nat.sub_0_r. set (body := fun (i : nat) (_ : bool) => _).
  assert (G : forall m i, i + m = cn A -> 0 < m -> forb_n m i body true = Err OOB \/
    forb_n m i body true = Ok false /\ exists c, c < cn A /\ (cp A).[c] < (cp A).[cn A] /\ (ci A).[(cp A).[c]] <> c).
  { induction m as [|m IH]; intros i Hi Hm; [lia|]. cbn [forb_n]. unfold body at 1 3. rewrite rd_ok by lia. cbn [bind].
    destruct (Nat.lt_ge_cases (cp A).[i] (length (ci A))) as [H|H].
    - rewrite rd_ok by lia. cbn [bind]. destruct (Nat.eqb_spec (ci A).[(cp A).[i]] i) as [E|E]; cbn [bind fst snd].
      + destruct (Nat.eq_dec m 0) as [->|Hm0]; [replace i with (cn A - 1) in H by lia; lia|]. apply IH; lia.
      + right. split; [reflexivity|]. exists i. splits; auto; lia.
    - left. unfold rd. rewrite (proj2 (nth_error_None _ _)) by lia. reflexivity. }
  apply (G (cn A) 0); lia.
Qed.

(** Distances that compare larger than nothing, such as NaNs, leave the residual at 0. *)
Theorem C126_nan : forall (zero : V) gtb dist lo hi (x0 x1 : list V), hi <= length x0 -> hi <= length x1 ->
  (forall i b, lo <= i < hi -> gtb (dist x0.[i] x1.[i]) b = false) -> residual zero gtb dist lo hi x0 x1 = Ok zero.
Proof.
  intros zero gtb dist lo hi x0 x1 H0 H1 HN. destruct (Nat.le_gt_cases lo hi) as [Hle|Hgt]; [|unfold residual; now rewrite for_nil by lia].
  assert (G : wp (residual zero gtb dist lo hi x0 x1) (fun r => r = zero)).
  { unfold residual. apply (wp_for (fun _ r => r = zero)); [lia|auto| |auto]. intros i mx Hi ->. wp1. wp1; [lia|]. wp1. wp1; [lia|]. wp1. now rewrite HN by lia. }
  unfold wp in G. destruct (residual zero gtb dist lo hi x0 x1); [now rewrite G|contradiction].
Qed.
End Query2.
Print Assumptions C126_empty_last_column.
Print Assumptions C126_nan.

Example C126_empty_last_column_case : wf_csc 3 [0;2;3;3] [0;2;1] /\
  verify_csc_diagonal (mkCSC 3 3 3 false 0%Z [0;2;3;3] [0;2;1] [1;2;3]) = Err OOB /\ verify_csc_diagonal (mkCSC 3 3 3 false 0%Z [0;2;3;3] [0;1;2] [1;2;3]) = Ok false.
Proof.
  splits; try reflexivity. unfold wf_csc. cbn. (splits; try lia); intros k Hk; do 4 (destruct k as [|k]; [cbn; lia|]); lia.
Qed.
Example C126_nan_case : residual (Some 0) (fun a b => match a, b with Some x, Some y => y <? x | _, _ => false end) (fun a b => match a, b with Some x, Some y => Some (x - y + (y - x)) | _, _ => None end)
  1 4 [Some 7;None;None;None] [Some 1;Some 2;None;Some 3] = Ok (Some 0).
Proof. apply C126_nan; try (cbn; lia). intros i b Hi. do 4 (destruct i as [|i]; [try lia; destruct b; reflexivity|]). lia. Qed.

(** If every part of a level costs more than n, the smallest cost that is reported is n, and so the difference is too large by
    the distance of the smallest cost to n; with one part it is positive. *)
Theorem C131_cut_off : forall n cs, (forall c, In c cs -> n < c) -> fold_right Nat.min n cs = n /\
  forall c, cs = [c] -> (0 < Z.of_nat (list_max cs) - Z.of_nat (fold_right Nat.min n cs))%Z.
Proof.
  intros n cs H. assert (G : fold_right Nat.min n cs = n).
  { induction cs as [|c cs IH]; [reflexivity|]. cbn [fold_right]. rewrite IH by (intros d Hd; apply H; now right). specialize (H c (or_introl eq_refl)). lia. }
  split; [exact G|]. intros c ->. rewrite G. specialize (H c (or_introl eq_refl)). unfold list_max. cbn [fold_right]. lia.
Qed.
Print Assumptions C131_cut_off.
Example C131_cut_off_case : fold_right Nat.min 4 [9;6;7] = 4 /\ list_max [9;6;7] = 9.
Proof. split; reflexivity. Qed.

(** Two columns of one name, new file or old: nothing is written after the constructor. *)
Theorem C137_duplicate_names_any : forall names force old i j ops c, i < j < length names -> names.[i] = names.[j] ->
  csv_open names force old = Ok c -> exists c', csv_run ops c = Ok c' /\ c_file c' = c_file c.
Proof.
  intros names force old i j ops c Hij E EO. apply (C137_duplicate_names names i j (c_file c) ops c Hij E).
  unfold csv_open in *. destruct old as [f|]; [destruct force|]; try (injection EO as <-; reflexivity);
    (destruct (put_line names []) as [file|]; [cbn [bind] in EO; injection EO as <-; reflexivity|discriminate]).
Qed.
Print Assumptions C137_duplicate_names_any.
Example C137_duplicate_names_case : (c <- csv_open [[65];[66];[65]] false None ;; c' <- csv_run [Add [49] [65]; Add [50] [66]; Rec; Add [51] [65]; Rec] c ;; Ok (c_file c')) = Ok [65;44;66;44;65;10].
Proof. vm_compute. reflexivity. Qed.
