(** C164: read_mtx on files written by print_csr. *)
From Coq Require Import Ascii String.
From Coq Require Import ZifyBool ZifyNat.
From Verif Require Import Base Lib Lib2 M_Mat SpecMat M_IO SpecIO L_Util L_IO L_IO4 P_IO M_MMIO L_MMIO P_MMIO P_MMIO2 M_MtxFile P_MtxFile M_PrintCSC P_PrintCSC.
Local Open Scope nat_scope.
Import ListNotations.
Local Open Scope list_scope.

Section Csr.
Context {V : Type} {DV : Dflt V}.
Variables (zero : V) (ofZ : Z -> V) (scan_dbl : text -> scan V) (show_dbl : V -> text) (round : V -> V).
Hypothesis Hdbl : dbl_ok scan_dbl show_dbl round.

Definition csr_file (n : nat) (p i : list nat) (x : list V) : list (nat * nat * tok (V := V)) :=
  flat_map (fun c => map (fun k => (c, i.[k], TReal (round x.[k]))) (seq p.[c] (p.[S c] - p.[c]))) (seq 0 n).

Lemma rows_seq m n p i : wf_mat m n p i -> flat_map (fun c => seq p.[c] (p.[S c] - p.[c])) (seq 0 n) = seq 0 p.[n].
Proof.
  intros (W1 & W2 & W3 & _). assert (G : forall c, c <= n -> flat_map (fun c => seq p.[c] (p.[S c] - p.[c])) (seq 0 c) = seq 0 p.[c]).
  { induction c as [|c IH]; intros Hc; [now rewrite W2|]. rewrite seq_S, flat_map_app, IH by lia. cbn [Nat.add flat_map]. rewrite app_nil_r.
    pose proof (W3 c ltac:(lia)). replace p.[S c] with (p.[c] + (p.[S c] - p.[c])) at 2 by lia. now rewrite seq_app. }
  now apply G.
Qed.

Lemma csr_cols m n p i x : wf_mat m n p i -> map ecol (map (file_ent ofZ) (csr_file n p i x)) = map (fun k => i.[k]) (seq 0 p.[n]).
Proof.
  intros HW. rewrite <- (rows_seq m n p i HW). unfold csr_file. generalize (seq 0 n) as l. induction l as [|c l IH]; [reflexivity|].
  cbn [flat_map]. rewrite !map_app, IH, !map_map. reflexivity.
Qed.

(** The file is sorted by rows, which read_mtx does not expect: each change of the column from one entry to the next
    starts a new column.  With more changes than there are columns it writes outside the column pointers. *)
Theorem C164_csr_overrun t beg m n p i x fuel : heading t beg -> known t -> short (Z.of_nat n) -> short (Z.of_nat p.[n]) ->
  wf_mat m n p i -> p.[n] <= length (vals zero i x) -> 0 < n ->
  n < length (filter (fun k => negb (i.[k] =? i.[k - 1])) (seq 1 (p.[n] - 1))) ->
  exists out, print_csc zero show_dbl true beg n p i x = Ok out /\ read_mtx_file zero scan_dbl fuel (Some out) = Err OOB.
Proof.
  intros HB HK Hn Hz HW HX H0 HF.
  destruct (C164_read_back zero ofZ scan_dbl show_dbl round Hdbl true t beg m n p i x fuel HB HK Hn Hz HW HX) as (out & E & R).
  exists out. split; [exact E|]. rewrite R. set (y := vals zero i x).
  pose proof (csr_cols m n p i y HW) as EC.
  assert (EL : length (csr_file n p i y) = p.[n]).
  { rewrite <- (map_length (file_ent ofZ)), <- (map_length (@ecol V)), EC, map_length, seq_length. reflexivity. }
  assert (ET : flat_map etoks (map (rnd_e round) (printed true n p i y)) = file_toks (csr_file n p i y)).
  { unfold printed, csr_file, file_toks. generalize (seq 0 n) as l. induction l as [|c l IH]; [reflexivity|]. cbn [flat_map].
    rewrite map_app, !flat_map_app, IH. f_equal. rewrite map_map, !flat_map_concat_map, !map_map. f_equal. }
  rewrite ET, <- (app_nil_r (file_toks _)), <- EL. apply C90_read_mtx_overrun; auto. rewrite EC, EL.
  eapply Nat.lt_le_trans; [exact HF|]. apply Nat.eq_le_incl. f_equal. apply filter_ext_in. intros k Hk. apply in_seq in Hk.
  rewrite !aget_map_seq by lia. reflexivity.
Qed.
End Csr.
Print Assumptions C164_csr_overrun.

(** a dense 2x2 matrix: the columns 0 1 0 1 change three times *)
Example C164_csr_case :
  let beg := chars "%%MatrixMarket matrix coordinate real general" in
  heading (mkTC "M" "C" "R" "G") beg /\ wf_mat 2 2 [0; 2; 4] [0; 1; 0; 1] /\
  length (filter (fun k => negb ([0; 1; 0; 1].[k] =? [0; 1; 0; 1].[k - 1])) (seq 1 3)) = 3 /\
  exists out, print_csc 0%Z show_int true beg 2 [0; 2; 4] [0; 1; 0; 1] (Some [1; 2; 3; 4]%Z) = Ok out /\ read_mtx_file 0%Z scan_int 0 (Some out) = Err OOB.
Proof.
  cbv zeta. splits; try (vm_compute; reflexivity).
  - unfold wf_mat. cbn. splits; try lia; intros [|[|[|[|k]]]] Hk; cbn; lia.
  - eexists. split; vm_compute; reflexivity.
Qed.
