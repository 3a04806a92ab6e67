(** C164: files written by print_csc and print_csr (utils/sparse_io.cpp 162-199) and read by read_mtx. *)
From Coq Require Import Ascii String.
From Coq Require Import ZifyBool ZifyNat.
From Verif Require Import Base Lib Lib2 M_Mat SpecMat M_IO SpecIO L_Util L_IO L_IO4 L_LBCPar P_IO M_MMIO L_MMIO P_MMIO P_MMIO2 M_MtxFile P_MtxFile M_PrintCSC.
Local Open Scope nat_scope.
Import ListNotations.
Local Open Scope list_scope.

(** * Specification *)

(** the stored entries in order, as the pairs of numbers printed for them *)
Definition printed {V} `{Dflt V} (csr : bool) (n : nat) (p i : list nat) (x : list V) : list (Z * Z * V) :=
  flat_map (fun c => map (fun k => if csr then (Z.of_nat c + 1, Z.of_nat i.[k] + 1, x.[k])%Z else (Z.of_nat i.[k] + 1, Z.of_nat c + 1, x.[k])%Z)
    (seq p.[c] (p.[S c] - p.[c]))) (seq 0 n).

(** the values; zeros where there are none *)
Definition vals {V} (zero : V) (i : list nat) (x : option (list V)) : list V := match x with Some x => x | None => repeat zero (length i) end.

(** the heading is the first line of a Matrix Market file *)
Definition heading (t : typecode) (beg : text) : Prop := mm_write_banner t = Ok (17%Z, beg ++ [NL]).

Section Print.
Context {V : Type} {DV : Dflt V}.
Variables (zero : V) (ofZ : Z -> V) (scan_dbl : text -> scan V) (show_dbl : V -> text) (round : V -> V).
Hypothesis Hdbl : dbl_ok scan_dbl show_dbl round.

Definition word (e : Z * Z * V) : text := let '(a, c, v) := e in show_int a ++ [SP] ++ show_int c ++ [SP] ++ show_dbl v.
Lemma line_word e : line show_dbl e = word e ++ [NL].
Proof. destruct e as [[a c] v]. cbn [line word]. now rewrite <- !app_assoc. Qed.

Lemma entries_before es f es' : entries scan_dbl [] f es' -> entries scan_dbl [] (flat_map (line show_dbl) es ++ f) (map (rnd_e round) es ++ es').
Proof.
  intros HF. induction es as [|[[a c] v] es IH]; [exact HF|]. cbn [flat_map map rnd_e app]. rewrite line_word. cbn [word].
  replace ((((show_int a ++ [SP] ++ show_int c ++ [SP] ++ show_dbl v) ++ [NL]) ++ flat_map (line show_dbl) es) ++ f)
    with ([] ++ show_int a ++ [SP] ++ show_int c ++ (SP :: show_dbl v) ++ [NL] ++ flat_map (line show_dbl) es ++ f)
    by (repeat (rewrite <- ?app_assoc; cbn [app]); reflexivity).
  econstructor; try apply show_int_literal.
  - intros x [].
  - exact blank_SP.
  - easy.
  - exact white_SP.
  - cbn [app]. apply Hdbl. exact white_NL.
  - apply entries_pre; [intros x [<-|[]]; exact white_NL|exact IH].
Qed.
Lemma nothing : entries scan_dbl [] [] [].
Proof. apply (E_nil scan_dbl [] []). intros x []. Qed.
Lemma entries_word e : entries scan_dbl [] (word e) [rnd_e round e].
Proof.
  destruct e as [[a c] v]. cbn [word rnd_e].
  replace (show_int a ++ [SP] ++ show_int c ++ [SP] ++ show_dbl v)
    with ([] ++ show_int a ++ [SP] ++ show_int c ++ (SP :: show_dbl v) ++ []) by (cbn [app]; now rewrite app_nil_r).
  econstructor; try apply show_int_literal.
  - intros x [].
  - exact blank_SP.
  - easy.
  - exact white_SP.
  - cbn [app]. apply Hdbl. exact I.
  - exact nothing.
Qed.

(** one line per entry, no newline at the end *)
Definition joined (es : list (Z * Z * V)) : text :=
  match es with [] => [] | e :: es => word e ++ flat_map (fun e => NL :: word e) es end.
Lemma joined_lines e es : joined (e :: es) ++ [NL] = flat_map (line show_dbl) (e :: es).
Proof.
  revert e. induction es as [|e' es IH]; intros e; cbn [joined flat_map].
  - now rewrite !app_nil_r, line_word.
  - specialize (IH e'). cbn [joined flat_map] in IH. rewrite <- IH, line_word, <- !app_assoc. reflexivity.
Qed.

(** after [k] entries, [N] in all: only the last has no newline *)
Definition upto (h : text) (N k : nat) (es : list (Z * Z * V)) (out : text) : Prop :=
  length es = k /\ out ++ (if (0 <? N) && (N <=? k) then [NL] else []) = h ++ flat_map (line show_dbl) es.

(** the characters: heading, sizes, one line per entry in order of storage; the last has no newline *)
Theorem C164_text csr beg m n p i x : wf_mat m n p i -> p.[n] <= length (vals zero i x) ->
  print_csc zero show_dbl csr beg n p i x =
  Ok (beg ++ [NL] ++ show_int (Z.of_nat n) ++ [SP] ++ show_int (Z.of_nat n) ++ [SP] ++ show_int (Z.of_nat p.[n]) ++ [NL] ++
      joined (printed csr n p i (vals zero i x))).
Proof.
  intros (W1 & W2 & W3 & W4 & W5) HX.
  set (N := p.[n]) in *.
  set (h := beg ++ [NL] ++ show_int (Z.of_nat n) ++ [SP] ++ show_int (Z.of_nat n) ++ [SP] ++ show_int (Z.of_nat N) ++ [NL]).
  set (pr := fun c k => if csr then (Z.of_nat c + 1, Z.of_nat i.[k] + 1, (vals zero i x).[k])%Z else (Z.of_nat i.[k] + 1, Z.of_nat c + 1, (vals zero i x).[k])%Z).
  assert (M : forall a b, a <= b -> b <= n -> p.[a] <= p.[b]) by (intros a b Ha Hb; apply (mono_le (aget p) n); auto).
  assert (HW : wp (print_csc zero show_dbl csr beg n p i x) (upto h N N (printed csr n p i (vals zero i x)))).
  { unfold print_csc.
    assert (E0 : (if 0 <? n then rd p n else Ok 0) = Ok N).
    { destruct (Nat.ltb_spec 0 n); [now rewrite rd_ok by lia|]. replace N with 0; auto. unfold N. replace n with 0 by lia. auto. }
    rewrite E0. cbn [bind]. fold h.
    apply (wp_for (fun c => upto h N p.[c] (flat_map (fun c => map (pr c) (seq p.[c] (p.[S c] - p.[c]))) (seq 0 c)))); [lia| | |].
    - rewrite W2. split; [reflexivity|]. replace ((0 <? N) && (N <=? 0)) with false by lia. reflexivity.
    - intros c out Hc HU. pose proof (W3 c ltac:(lia)). pose proof (M (S c) n ltac:(lia) ltac:(lia)). wp1. wp1; [lia|]. wp1. wp1; [lia|].
      apply (wp_for (fun j => upto h N j (flat_map (fun c => map (pr c) (seq p.[c] (p.[S c] - p.[c]))) (seq 0 c) ++ map (pr c) (seq p.[c] (j - p.[c]))))); [lia| | |].
      + rewrite Nat.sub_diag. cbn [seq map]. now rewrite app_nil_r.
      + intros j o Hj (U1 & U2).
        assert (EX : match x with Some Ax => rd Ax j | None => Ok zero end = Ok (vals zero i x).[j]).
        { unfold vals in *. destruct x as [l|]; [rewrite rd_ok by lia; auto|]. now rewrite aget_repeat by lia. }
        rewrite EX. cbn [bind]. wp1. wp1; [lia|].
        replace (S j - p.[c]) with (S (j - p.[c])) by lia. rewrite seq_S, map_app. cbn [map]. replace (p.[c] + (j - p.[c])) with j by lia.
        replace ((0 <? N) && (N <=? j)) with false in U2 by lia. rewrite app_nil_r in U2. subst o.
        assert (EP : (let '(r, c0) := if csr then (c, i.[j]) else (i.[j], c) in
            last <- rd p n ;; Ok ((h ++ flat_map (line show_dbl) (flat_map (fun c => map (pr c) (seq p.[c] (p.[S c] - p.[c]))) (seq 0 c) ++ map (pr c) (seq p.[c] (j - p.[c])))) ++
              show_int (Z.of_nat r + 1) ++ [SP] ++ show_int (Z.of_nat c0 + 1) ++ [SP] ++ show_dbl (vals zero i x).[j] ++ (if S j =? last then [] else [NL]))) =
          Ok ((h ++ flat_map (line show_dbl) (flat_map (fun c => map (pr c) (seq p.[c] (p.[S c] - p.[c]))) (seq 0 c) ++ map (pr c) (seq p.[c] (j - p.[c])))) ++ word (pr c j) ++ (if S j =? N then [] else [NL]))).
        { rewrite rd_ok by lia. unfold pr, word. destruct csr; cbn [bind]; fold N; rewrite <- !app_assoc; reflexivity. }
        rewrite EP. unfold wp. split.
        * rewrite app_assoc, app_length, U1. cbn [length]. lia.
        * rewrite !flat_map_app. cbn [flat_map]. rewrite app_nil_r, line_word. rewrite <- !app_assoc. do 4 f_equal.
          destruct (Nat.eqb_spec (S j) N) as [E|E].
          -- replace ((0 <? N) && (N <=? S j)) with true by lia. reflexivity.
          -- replace ((0 <? N) && (N <=? S j)) with false by lia. reflexivity.
      + intros o HU'. rewrite seq_S, flat_map_app. cbn [Nat.add flat_map]. rewrite app_nil_r. exact HU'.
    - auto. }
  apply wp_ok in HW. destruct HW as (out & -> & U1 & U2).
  set (es := printed csr n p i (vals zero i x)) in *. rewrite Nat.leb_refl, andb_true_r in U2.
  destruct (Nat.ltb_spec 0 N) as [HN|HN].
  - assert (EJ : joined es ++ [NL] = flat_map (line show_dbl) es).
    { destruct es as [|e es']; [cbn [length] in U1; lia|]. apply joined_lines. }
    rewrite <- EJ, app_assoc in U2. apply app_inj_tail in U2. destruct U2 as [-> _]. unfold h. now rewrite <- !app_assoc.
  - rewrite app_nil_r in U2. subst out. destruct es as [|e es']; [|cbn [length] in U1; lia]. unfold h. cbn [flat_map joined]. now rewrite <- !app_assoc.
Qed.

Lemma entries_joined es : entries scan_dbl [] (joined es) (map (rnd_e round) es).
Proof.
  destruct es as [|e0 es0]; [exact nothing|]. pose proof (joined_lines e0 es0) as EJ. revert EJ. generalize (e0 :: es0) as es. intros es EJ.
  destruct es as [|e es _] using rev_ind; [destruct (joined []); discriminate|]. rewrite flat_map_app in EJ. cbn [flat_map] in EJ.
  rewrite app_nil_r, line_word, app_assoc in EJ. apply app_inj_tail in EJ. destruct EJ as [-> _]. rewrite map_app. apply entries_before, entries_word.
Qed.

(** what is read are the numbers printed *)
Theorem C164_read_back csr t beg m n p i x fuel : heading t beg -> known t -> short (Z.of_nat n) -> short (Z.of_nat p.[n]) ->
  wf_mat m n p i -> p.[n] <= length (vals zero i x) ->
  exists out, print_csc zero show_dbl csr beg n p i x = Ok out /\
    read_mtx_file zero scan_dbl fuel (Some out) =
    read_mtx zero ofZ n n p.[n] (mm_is_symmetric t) (flat_map etoks (map (rnd_e round) (printed csr n p i (vals zero i x)))).
Proof.
  intros HB HK Hn Hz HW HX. eexists. split; [exact (C164_text csr beg m n p i x HW HX)|].
  apply (C163_layout zero ofZ scan_dbl show_dbl round t [] n n p.[n] (joined (printed csr n p i (vals zero i x)))); auto; [|apply entries_joined].
  exists (beg ++ [NL]). split; [exact HB|]. unfold mm_write_mtx_crd_size. cbn [snd]. rewrite <- !app_assoc. reflexivity.
Qed.

Lemma read_mtx_rows m m' n nnz sym toks B : read_mtx zero ofZ m n nnz sym toks = Ok (Some B) ->
  read_mtx zero ofZ m' n nnz sym toks = Ok (Some (mkMtx m' (mn B) (mnnz B) (mst B) (mp B) (mi B) (mx B))).
Proof.
  unfold read_mtx. destruct (read_coo zero ofZ nnz toks) as [[[[eof Ri] J] X]|]; cbn [bind]; [|discriminate]. destruct eof; [discriminate|].
  destruct (run_starts nnz J _); cbn [bind]; [|discriminate]. destruct (wr _ n nnz); cbn [bind]; [|discriminate]. intros [= <-]. reflexivity.
Qed.

(** print_csc: the square matrix comes back, with zeros if it has no values; the number of rows is always taken to be
    the number of columns *)
Theorem C164_csc t beg m n p i x fuel : heading t beg -> known t -> short (Z.of_nat n) -> short (Z.of_nat p.[n]) ->
  wf_mat m n p i -> p.[n] <= length (vals zero i x) -> length i <= length (vals zero i x) -> 0 < p.[n] ->
  exists out B, print_csc zero show_dbl false beg n p i x = Ok out /\ read_mtx_file zero scan_dbl fuel (Some out) = Ok (Some B) /\
    mm B = n /\ mn B = n /\ mnnz B = p.[n] /\ mst B = (if mm_is_symmetric t then -1 else 0)%Z /\
    mi B = map Z.of_nat (firstn p.[n] i) /\ mx B = map round (firstn p.[n] (vals zero i x)) /\
    (mp B = firstn (S n) p <-> (forall c, c < n -> p.[c] < p.[S c]) \/ p.[n - 1] = 0).
Proof.
  intros HB HK Hn Hz HW HX HL HP. destruct (C164_read_back false t beg m n p i x fuel HB HK Hn Hz HW HX) as (out & E & R).
  set (A := mkCSC m n p.[n] false 0%Z p i (vals zero i x)).
  destruct (round_trip zero ofZ round A HW HL eq_refl HP (mm_is_symmetric t)) as (B & R' & B1 & B2 & B3 & B4 & B5 & B6 & B7).
  assert (ET : flat_map etoks (map (rnd_e round) (printed false n p i (vals zero i x))) = file_toks (mat_file round A)).
  { unfold printed, mat_file, file_toks, A. cbn [cn cp ci cx]. generalize (seq 0 n) as l. induction l as [|c l IH]; [reflexivity|]. cbn [flat_map].
    rewrite map_app, !flat_map_app, IH. f_equal. rewrite map_map, !flat_map_concat_map, !map_map. f_equal. }
  rewrite ET in R. exists out, (mkMtx n (mn B) (mnnz B) (mst B) (mp B) (mi B) (mx B)). split; [exact E|]. split.
  - rewrite R. exact (read_mtx_rows _ _ _ _ _ _ _ R').
  - cbn [mm mn mnnz mst mp mi mx]. auto 10.
Qed.

(** a matrix with more rows than columns: the file has a row that is not one of the matrix it announces *)
Theorem C164_rectangular t beg m n p i x fuel k : heading t beg -> known t -> short (Z.of_nat n) -> short (Z.of_nat p.[n]) ->
  wf_mat m n p i -> p.[n] <= length (vals zero i x) -> length i <= length (vals zero i x) -> k < p.[n] -> n <= i.[k] ->
  exists out B, print_csc zero show_dbl false beg n p i x = Ok out /\ read_mtx_file zero scan_dbl fuel (Some out) = Ok (Some B) /\
    exists r, In r (mi B) /\ (Z.of_nat (mm B) <= r)%Z.
Proof.
  intros HB HK Hn Hz HW HX HL Hk Hr. destruct (C164_csc t beg m n p i x fuel HB HK Hn Hz HW HX HL ltac:(lia)) as (out & B & E & R & B1 & _ & _ & _ & B5 & _).
  exists out, B. splits; auto. exists (Z.of_nat i.[k]). rewrite B1, B5. split; [|lia]. apply in_map.
  pose proof HW as (_ & _ & _ & W4 & _). rewrite <- (aget_firstn i p.[n] k) by lia. apply aget_In. rewrite firstn_length. lia.
Qed.
End Print.
Print Assumptions C164_text.
Print Assumptions C164_read_back.
Print Assumptions C164_csc.
Print Assumptions C164_rectangular.

(** whole numbers stand for the doubles *)
Example C164_case :
  let beg := chars "%%MatrixMarket matrix coordinate real symmetric" in
  heading (mkTC "M" "C" "R" "S") beg /\ known (mkTC "M" "C" "R" "S") /\
  print_csc 0%Z show_int false beg 2 [0; 2; 3] [0; 1; 1] (Some [5; -6; 7]%Z) =
    Ok (beg ++ [NL] ++ chars "2 2 3" ++ [NL] ++ chars "1 1 5" ++ [NL] ++ chars "2 1 -6" ++ [NL] ++ chars "2 2 7") /\
  print_csc 0%Z show_int true beg 2 [0; 2; 3] [0; 1; 1] None =
    Ok (beg ++ [NL] ++ chars "2 2 3" ++ [NL] ++ chars "1 1 0" ++ [NL] ++ chars "1 2 0" ++ [NL] ++ chars "2 2 0") /\
  read_mtx_file 0%Z scan_int 0 (Some (beg ++ [NL] ++ chars "2 2 3" ++ [NL] ++ chars "1 1 5" ++ [NL] ++ chars "2 1 -6" ++ [NL] ++ chars "2 2 7")) =
    Ok (Some (mkMtx 2 2 3 (-1)%Z [0; 2; 3] [0; 1; 1]%Z [5; -6; 7]%Z)) /\
  wf_mat 2 2 [0; 2; 3] [0; 1; 1] /\ wf_mat 3 1 [0; 2] [0; 2] /\ short 2 /\ short 3.
Proof.
  cbv zeta. splits; try (vm_compute; reflexivity); try (unfold short; apply Nat.leb_le; vm_compute; reflexivity).
  - unfold known. cbn. auto 12.
  - unfold wf_mat. cbn. splits; try lia; intros [|[|[|k]]] Hk; cbn; lia.
  - unfold wf_mat. cbn. splits; try lia; intros [|[|k]] Hk; cbn; lia.
Qed.
