(** C163: when read_mtx returns the null pointer. *)
From Coq Require Import Ascii String.
From Coq Require Import ZifyBool ZifyNat.
From Verif Require Import Base Lib Lib2 M_Mat M_IO L_Util L_IO M_MMIO L_MMIO P_MMIO M_MtxFile P_MtxFile.
Local Open Scope nat_scope.
Import ListNotations.
Local Open Scope list_scope.

Section Null.
Context {V : Type} {DV : Dflt V}.
Variables (zero : V) (ofZ : Z -> V) (scan_dbl : text -> scan V) (show_dbl : V -> text) (round : V -> V).

Lemma coo_flag : forall k i Ri J X (es : list (Z * Z * V)), i + k <= length Ri -> i + k <= length J -> i + k <= length X ->
  exists Ri' J' X' toks, forb_n k i (coo_body ofZ) (false, Ri, J, X, flat_map etoks es) = Ok (length es <? k, Ri', J', X', toks).
Proof.
  induction k as [|k IH]; intros i Ri J X es H1 H2 H3; [do 4 eexists; reflexivity|]. cbn [forb_n].
  destruct es as [|[[a c] v] es]; [do 4 eexists; reflexivity|]. cbn [flat_map etoks app]. unfold coo_body at 1. cbn [fscanf3 tint bind tval].
  repeat (first [rewrite wr_ok by (rewrite ?upd_length; lia)|rewrite rd_ok by (rewrite ?upd_length; lia)]; cbn [bind]). cbn [fst snd].
  apply (IH (S i)); rewrite !upd_length; lia.
Qed.

Lemma read_null m n nnz sym (es : list (Z * Z * V)) : read_mtx zero ofZ m n nnz sym (flat_map etoks es) = Ok None <-> length es < nnz.
Proof.
  unfold read_mtx, read_coo, forb_. fold (coo_body (V := V) ofZ). rewrite Nat.sub_0_r.
  destruct (coo_flag nnz 0 (repeat 0%Z nnz) (repeat 0%Z nnz) (repeat zero nnz) es) as (a & b & c & d & ->); rewrite ?repeat_length; auto.
  cbn [bind]. destruct (Nat.ltb_spec (length es) nnz) as [H|H]; [tauto|]. split; [|lia].
  destruct (run_starts nnz b _); cbn [bind]; [|discriminate]. destruct (wr _ n nnz); discriminate.
Qed.

(** a file whose header and entries can be read gives the null pointer exactly if it has fewer entries than announced;
    with text that is no number after the entries it never does *)
Theorem C163_null t cs m n nnz f file fuel es : known t -> Forall comment cs ->
  short (Z.of_nat m) -> short (Z.of_nat n) -> short (Z.of_nat nnz) -> mtx_text t cs m n nnz f file -> entries scan_dbl [] f es ->
  read_mtx_file zero scan_dbl fuel (Some file) = Ok None <-> length es < nnz.
Proof.
  intros Hk Hc Hm Hn Hz HT HE. rewrite (C163_layout zero ofZ scan_dbl show_dbl round t cs m n nnz f file fuel es) by auto. apply read_null.
Qed.
Theorem C163_unreadable_not_null t cs m n nnz f file fuel tl es : known t -> Forall comment cs ->
  short (Z.of_nat m) -> short (Z.of_nat n) -> short (Z.of_nat nnz) -> mtx_text t cs m n nnz f file ->
  unreadable tl -> entries scan_dbl tl f es -> read_mtx_file zero scan_dbl fuel (Some file) <> Ok None.
Proof.
  intros Hk Hc Hm Hn Hz HT Hu HE. rewrite (C163_unreadable zero ofZ scan_dbl show_dbl round t cs m n nnz f file fuel tl es) by auto.
  intros E. apply read_null in E. rewrite app_length, repeat_length in E. lia.
Qed.
End Null.
Print Assumptions C163_null.
Print Assumptions C163_unreadable_not_null.

(** two entries, three announced *)
Example C163_null_case :
  read_mtx_file 0%Z scan_int 0 (Some (chars "%%MatrixMarket matrix coordinate real general" ++ [NL] ++ chars "2 2 3" ++ [NL] ++ chars "1 1 5" ++ [NL] ++ chars "2 2 7" ++ [NL])) = Ok None /\
  read_mtx_file 0%Z scan_int 0 (Some (chars "%%MatrixMarket matrix coordinate real general" ++ [NL] ++ chars "2 2 1" ++ [NL] ++ chars "1 1 5" ++ [NL] ++ chars "2 2 7" ++ [NL])) =
    Ok (Some (mkMtx 2 2 1 0%Z [0; 0; 1] [0]%Z [5]%Z)).
Proof. split; vm_compute; reflexivity. Qed.
