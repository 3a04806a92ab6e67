(** C163: read_mtx and CSC_to_mtx on the characters of the file. *)
From Coq Require Import Ascii String.
From Coq Require Import ZifyBool ZifyNat.
From Verif Require Import Base Lib Lib2 M_Mat SpecMat M_IO SpecIO L_Util L_IO L_LBCPar P_IO M_MMIO L_MMIO P_MMIO P_MMIO2 M_MtxFile.
Local Open Scope nat_scope.
Import ListNotations.
Local Open Scope list_scope.

(** * Specification *)

(** a character at which no number starts *)
Definition stuck (c : ascii) : Prop := ~ white c /\ ~ digit c /\ c <> "-"%char /\ c <> "+"%char.
Definition unreadable (tl : text) : Prop := match tl with [] => False | c :: _ => stuck c end.

Section Spec.
Context {V : Type}.
Variable scan_dbl : text -> scan V.
Variable tl : text.

(** the text of entries, separated by any white space, followed by [tl] *)
Inductive entries : text -> list (Z * Z * V) -> Prop :=
| E_nil b : blank b -> entries (b ++ tl) []
| E_cons b w1 a s w2 c d v r es : blank b -> literal w1 a -> blank s -> s <> [] -> literal w2 c -> ends (d ++ r) ->
    scan_dbl (d ++ r) = Got v r -> entries r es -> entries (b ++ w1 ++ s ++ w2 ++ d ++ r) ((a, c, v) :: es).
End Spec.

Definition etoks {V} (e : Z * Z * V) : list (tok (V := V)) := let '(a, c, v) := e in [TInt a; TInt c; TReal v].

(** * Lemmas *)
Section Bridge.
Context {V : Type} {DV : Dflt V}.
Variables (zero : V) (ofZ : Z -> V) (scan_dbl : text -> scan V).

Lemma literal_stop w z r : literal w z -> skip_ws (w ++ r) = w ++ r.
Proof.
  intros H. pose proof (literal_nonempty _ _ H). destruct w as [|c w]; [easy|]. cbn [app].
  apply skip_ws_stop. apply (literal_not_white _ _ c H). now left.
Qed.

Lemma entries_skip tl f es : tl = [] \/ unreadable tl -> entries scan_dbl tl f es -> entries scan_dbl tl (skip_ws f) es.
Proof.
  intros Ht [b Hb|b w1 a s w2 c d v r es' Hb H1 Hs Hs' H2 He Hd Hr].
  - rewrite skip_ws_blank by auto. replace (skip_ws tl) with ([] ++ tl); [now constructor|]. destruct Ht as [->|Ht]; [reflexivity|].
    destruct tl as [|c t]; [easy|]. symmetry. apply skip_ws_stop, Ht.
  - rewrite skip_ws_blank by auto. rewrite (literal_stop w1 a) by auto. rewrite <- (app_nil_l (w1 ++ _)). econstructor; eauto. intros x [].
Qed.

Lemma entries_pre tl b f es : blank b -> entries scan_dbl tl f es -> entries scan_dbl tl (b ++ f) es.
Proof.
  intros Hb [b' Hb'|b' w1 a s w2 c d v r es' Hb' H1 Hs Hs' H2 He Hd Hr]; rewrite app_assoc.
  - constructor. intros x Hx. apply in_app_iff in Hx. destruct Hx; auto.
  - econstructor; eauto. intros x Hx. apply in_app_iff in Hx. destruct Hx; auto.
Qed.

(** what the reader without characters reads for the rest *)
Definition rest_toks (tl : text) (k : nat) : list (tok (V := V)) :=
  match tl with [] => [] | _ => flat_map etoks (repeat (0%Z, 0%Z, zero) k) end.

Definition cut {A B C D E} (m : res (A * B * C * D * E)) : res (A * B * C * D) := '(a, b, c, d, _) <- m ;; Ok (a, b, c, d).

Lemma sim tl : tl = [] \/ unreadable tl -> forall k i fl Ri J X f es,
  length Ri = i + k -> length J = i + k -> length X = i + k ->
  (forall j, i <= j < i + k -> Ri.[j] = 0%Z /\ J.[j] = 0%Z /\ X.[j] = zero) ->
  entries scan_dbl tl f es ->
  cut (forb_n k i (coo_step scan_dbl) (fl, Ri, J, X, f)) =
  cut (forb_n k i (coo_body ofZ) (fl, Ri, J, X, flat_map etoks es ++ rest_toks tl (k - length es))).
Proof.
  intros Ht. induction k as [|k IH]; intros i fl Ri J X f es L1 L2 L3 Z0 HE; [reflexivity|]. cbn [forb_n].
  destruct HE as [b Hb|b w1 a s w2 c d v r es Hb H1 Hs Hs' H2 He Hd Hr].
  - unfold coo_step at 1. rewrite skip_ws_blank by auto. destruct Ht as [->|Ht]; [reflexivity|].
    destruct tl as [|c t]; [easy|]. destruct Ht as (Hw & Hg & Hm & Hp). rewrite skip_ws_stop by auto.
    unfold fscanf. cbn [scan_fields]. unfold scan_int. rewrite skip_ws_blank, skip_ws_stop by auto.
    destruct (is_digit c) eqn:Ed; [apply is_digit_digit in Ed; easy|]. destruct (ascii_dec c "-"); [easy|]. destruct (ascii_dec c "+"); [easy|].
    cbn [length Nat.eqb andb nth_error bind flat_map app rest_toks Nat.sub repeat etoks]. unfold coo_body at 1. cbn [fscanf3 tint bind tval].
    destruct (Z0 i ltac:(lia)) as (A & B & C).
    assert (UA : upd Ri i 0%Z = Ri) by (rewrite <- A; apply upd_same). assert (UB : upd J i 0%Z = J) by (rewrite <- B; apply upd_same).
    assert (UC : upd X i zero = X) by (rewrite <- C; apply upd_same).
    rewrite (wr_ok Ri i 0%Z), (wr_ok J i 0%Z), (wr_ok X i zero) by lia. rewrite UA, UB, UC. cbn [bind].
    rewrite !rd_ok by lia. cbn [bind]. rewrite !wr_ok by lia. cbn [bind fst snd].
    rewrite (IH (S i) false (upd Ri i (Ri.[i] - 1)%Z) (upd J i (J.[i] - 1)%Z) X (c :: t) []).
    + cbn [flat_map app rest_toks length]. rewrite Nat.sub_0_r. reflexivity.
    + rewrite upd_length; lia.
    + rewrite upd_length; lia.
    + lia.
    + intros j Hj. rewrite !aget_upd_ne by lia. apply Z0. lia.
    + change (c :: t) with ([] ++ c :: t). constructor. intros x [].
  - unfold coo_step at 1. rewrite skip_ws_blank by auto. rewrite (literal_stop w1 a) by auto.
    destruct (w1 ++ s ++ w2 ++ d ++ r) as [|c0 l0] eqn:EE.
    { exfalso. apply app_eq_nil in EE. exact (literal_nonempty _ _ H1 (proj1 EE)). }
    rewrite <- EE. clear c0 l0 EE. unfold fscanf. cbn [scan_fields].
    rewrite (scan_int_literal b w1 a); [|auto|auto|]. 2:{ destruct s as [|x s]; [easy|]. cbn. apply Hs. now left. }
    rewrite (scan_int_literal s w2 c) by auto. rewrite Hd. cbn [length Nat.eqb andb nth_error].
    cbn [flat_map etoks app]. unfold coo_body at 1. cbn [fscanf3 tint bind tval].
    repeat (first [rewrite wr_ok by (rewrite ?upd_length; lia)|rewrite rd_ok by (rewrite ?upd_length; lia)]; cbn [bind]).
    cbn [fst snd length Nat.sub].
    apply IH.
    + rewrite !upd_length; lia.
    + rewrite !upd_length; lia.
    + rewrite !upd_length; lia.
    + intros j Hj. rewrite !aget_upd_ne by lia. apply Z0. lia.
    + now apply entries_skip.
Qed.

Lemma fill_bridge tl m n nnz sym f es : tl = [] \/ unreadable tl -> entries scan_dbl tl f es ->
  fill_mtx zero scan_dbl m n nnz sym f = read_mtx zero ofZ m n nnz sym (flat_map etoks es ++ rest_toks tl (nnz - length es)).
Proof.
  intros Ht HE. unfold fill_mtx, read_mtx.
  assert (E : read_coo_text zero scan_dbl nnz f = read_coo zero ofZ nnz (flat_map etoks es ++ rest_toks tl (nnz - length es))).
  { unfold read_coo_text, read_coo, forb_. fold (coo_body ofZ). rewrite Nat.sub_0_r.
    apply (sim tl Ht nnz 0 false); rewrite ?repeat_length; auto. intros j Hj. rewrite !aget_repeat by lia. auto. }
  now rewrite E.
Qed.
End Bridge.

(** * C163 *)
Section C163.
Context {V : Type} {DV : Dflt V}.
Variables (zero : V) (ofZ : Z -> V) (scan_dbl : text -> scan V) (show_dbl : V -> text) (round : V -> V).

(** the file: a banner, comment lines, the sizes and the text of some entries *)
Definition mtx_text (t : typecode) (cs : list text) (m n nnz : nat) (f file : text) : Prop :=
  exists banner, mm_write_banner t = Ok (17%Z, banner) /\
    file = banner ++ concat cs ++ snd (mm_write_mtx_crd_size (Z.of_nat m) (Z.of_nat n) (Z.of_nat nnz)) ++ f.

Lemma read_text t cs m n nnz f file fuel : known t -> Forall comment cs ->
  short (Z.of_nat m) -> short (Z.of_nat n) -> short (Z.of_nat nnz) -> mtx_text t cs m n nnz f file ->
  read_mtx_file zero scan_dbl fuel (Some file) = fill_mtx zero scan_dbl m n nnz (mm_is_symmetric t) f.
Proof.
  intros Hk Hc Hm Hn Hz (banner & W & ->). unfold read_mtx_file.
  destruct (C157_banner_roundtrip t (concat cs ++ snd (mm_write_mtx_crd_size (Z.of_nat m) (Z.of_nat n) (Z.of_nat nnz)) ++ f) Hk) as (out & W' & R).
  rewrite W in W'. injection W' as <-. rewrite R. cbn [bind Z.eqb negb].
  destruct (C158_crd_size_roundtrip fuel cs (Z.of_nat m) (Z.of_nat n) (Z.of_nat nnz) f Hc Hm Hn Hz) as (out & W' & R').
  rewrite W'. cbn [snd]. rewrite R'. cbn [bind Z.eqb negb].
  change (rd [Z.of_nat m; Z.of_nat n; Z.of_nat nnz] 0) with (Ok (Z.of_nat m)). change (rd [Z.of_nat m; Z.of_nat n; Z.of_nat nnz] 1) with (Ok (Z.of_nat n)).
  change (rd [Z.of_nat m; Z.of_nat n; Z.of_nat nnz] 2) with (Ok (Z.of_nat nnz)). cbn [bind].
  replace ((Z.of_nat m <? 0) || (Z.of_nat n <? 0) || (Z.of_nat nnz <? 0))%Z with false by lia. now rewrite !Nat2Z.id.
Qed.

(** the layout of a file does not matter: any white space between the numbers, also line breaks, and any comments before
    the sizes; what is read are the numbers *)
Theorem C163_layout t cs m n nnz f file fuel es : known t -> Forall comment cs ->
  short (Z.of_nat m) -> short (Z.of_nat n) -> short (Z.of_nat nnz) -> mtx_text t cs m n nnz f file -> entries scan_dbl [] f es ->
  read_mtx_file zero scan_dbl fuel (Some file) = read_mtx zero ofZ m n nnz (mm_is_symmetric t) (flat_map etoks es).
Proof.
  intros Hk Hc Hm Hn Hz HT HE. rewrite (read_text t cs m n nnz f file fuel) by auto.
  rewrite (fill_bridge zero ofZ scan_dbl [] m n nnz _ f es) by auto. now rewrite app_nil_r.
Qed.

(** text that is no number is not noticed: from there on all entries are taken to be [0 0 0.0], that is row and column -1 *)
Theorem C163_unreadable t cs m n nnz f file fuel tl es : known t -> Forall comment cs ->
  short (Z.of_nat m) -> short (Z.of_nat n) -> short (Z.of_nat nnz) -> mtx_text t cs m n nnz f file ->
  unreadable tl -> entries scan_dbl tl f es ->
  read_mtx_file zero scan_dbl fuel (Some file) =
  read_mtx zero ofZ m n nnz (mm_is_symmetric t) (flat_map etoks (es ++ repeat (0%Z, 0%Z, zero) (nnz - length es))).
Proof.
  intros Hk Hc Hm Hn Hz HT Hu HE. rewrite (read_text t cs m n nnz f file fuel) by auto.
  rewrite (fill_bridge zero ofZ scan_dbl tl m n nnz _ f es) by auto. rewrite flat_map_app. destruct tl; easy.
Qed.

(** ** The writer *)
Definition line (e : Z * Z * V) : text := let '(a, c, v) := e in show_int a ++ [SP] ++ show_int c ++ [SP] ++ show_dbl v ++ [NL].
Definition rnd_e (e : Z * Z * V) : Z * Z * V := let '(a, c, v) := e in (a, c, round v).

Lemma entries_lines es : dbl_ok scan_dbl show_dbl round -> entries scan_dbl [] (flat_map line es) (map rnd_e es).
Proof.
  intros Hd. induction es as [|[[a c] v] es IH].
  - change (flat_map line []) with ([] ++ [] : text). constructor. intros x [].
  - cbn [flat_map map rnd_e line].
    replace ((show_int a ++ [SP] ++ show_int c ++ [SP] ++ show_dbl v ++ [NL]) ++ flat_map line es)
      with ([] ++ show_int a ++ [SP] ++ show_int c ++ (SP :: show_dbl v) ++ [NL] ++ flat_map line es) by (cbn [app]; now rewrite <- !app_assoc; cbn [app]; rewrite <- !app_assoc; cbn [app]; rewrite <- !app_assoc).
    econstructor; try apply show_int_literal.
    + intros x [].
    + exact blank_SP.
    + easy.
    + exact white_SP.
    + cbn [app]. apply Hd. exact white_NL.
    + apply entries_pre; [intros x [<-|[]]; exact white_NL|exact IH].
Qed.

Lemma writer A head out : for_ 0 (cn A) (fun c out =>
      b <- rd (cp A) c ;; e <- rd (cp A) (S c) ;;
      for_ b e (fun j out => r <- rd (ci A) j ;; x <- rd (cx A) j ;;
        Ok (out ++ [TInt (Z.of_nat r + 1); TInt (Z.of_nat c + 1); TReal (round x)])) out) [] = Ok out ->
  exists es, out = flat_map etoks (map rnd_e es) /\
    for_ 0 (cn A) (fun c out =>
      b <- rd (cp A) c ;; e <- rd (cp A) (S c) ;;
      for_ b e (fun j out => r <- rd (ci A) j ;; x <- rd (cx A) j ;;
        Ok (out ++ show_int (Z.of_nat r + 1) ++ [SP] ++ show_int (Z.of_nat c + 1) ++ [SP] ++ show_dbl x ++ [NL])) out) head
    = Ok (head ++ flat_map line es).
Proof.
  set (R := fun (o : list (tok (V := V))) (o' : text) => exists es, o = flat_map etoks (map rnd_e es) /\ o' = head ++ flat_map line es).
  intros H. match goal with |- exists es, _ /\ for_ 0 (cn A) ?g head = _ =>
    enough (G : exists o', for_ 0 (cn A) g head = Ok o' /\ R out o') by (destruct G as (o' & E & es & E1 & E2); exists es; split; [exact E1|now rewrite E, E2]) end.
  revert H. apply for_rel; [|exists []; split; [reflexivity|now rewrite app_nil_r]].
  intros c o o' o1 Hc HR E. apply bind_inv in E. destruct E as (b & Eb & E). apply bind_inv in E. destruct E as (e & Ee & E).
  cbn beta. rewrite Eb, Ee. cbn [bind]. revert E. apply for_rel; [|exact HR].
  intros j x y x' Hj (es & -> & ->) E. apply bind_inv in E. destruct E as (r & Er & E). apply bind_inv in E. destruct E as (v & Ev & E).
  injection E as <-. rewrite Er, Ev. cbn [bind]. eexists. split; [reflexivity|].
  exists (es ++ [(Z.of_nat r + 1, Z.of_nat c + 1, v)%Z]). rewrite map_app, !flat_map_app. cbn [map flat_map rnd_e etoks line]. rewrite !app_nil_r. split; [reflexivity|]. now rewrite <- app_assoc.
Qed.

(** what CSC_to_mtx writes are the characters of the numbers it is said to write, and read_mtx reads from them what it is
    said to read from the numbers *)
Theorem C163_written A m n nnz toks fuel : dbl_ok scan_dbl show_dbl round ->
  short (Z.of_nat (cm A)) -> short (Z.of_nat (cn A)) -> short (Z.of_nat (cnnz A)) -> CSC_to_mtx round A = Ok (m, n, nnz, toks) ->
  exists out, CSC_to_mtx_file show_dbl A = Ok out /\ read_mtx_file zero scan_dbl fuel (Some out) = read_mtx zero ofZ m n nnz false toks.
Proof.
  intros Hd Hm Hn Hz E. unfold CSC_to_mtx in E. apply bind_inv in E. destruct E as (o & Eo & E). injection E as <- <- <- <-.
  assert (Hk : known (mkTC "M" "C" "R" "G")) by (unfold known; cbn; auto 12).
  destruct (C157_banner_roundtrip _ [] Hk) as (banner & W & _).
  destruct (writer A (banner ++ snd (mm_write_mtx_crd_size (Z.of_nat (cm A)) (Z.of_nat (cn A)) (Z.of_nat (cnnz A)))) o Eo) as (es & -> & W').
  exists ((banner ++ snd (mm_write_mtx_crd_size (Z.of_nat (cm A)) (Z.of_nat (cn A)) (Z.of_nat (cnnz A)))) ++ flat_map line es). split.
  - unfold CSC_to_mtx_file. rewrite W. cbn [bind]. rewrite <- W'. reflexivity.
  - apply (C163_layout (mkTC "M" "C" "R" "G") [] (cm A) (cn A) (cnnz A) (flat_map line es)); auto.
    + exists banner. split; [exact W|]. cbn [concat app]. now rewrite <- app_assoc.
    + now apply entries_lines.
Qed.

(** so C94 holds for the characters *)
Theorem C163_round_trip A fuel : dbl_ok scan_dbl show_dbl round ->
  short (Z.of_nat (cm A)) -> short (Z.of_nat (cn A)) -> short (Z.of_nat (cnnz A)) ->
  wf_mat (cm A) (cn A) (cp A) (ci A) -> length (ci A) <= length (cx A) -> cnnz A = (cp A).[cn A] -> 0 < cnnz A ->
  exists out B, CSC_to_mtx_file show_dbl A = Ok out /\ read_mtx_file zero scan_dbl fuel (Some out) = Ok (Some B) /\
    mm B = cm A /\ mn B = cn A /\ mnnz B = cnnz A /\ mst B = 0%Z /\ mi B = map Z.of_nat (firstn (cnnz A) (ci A)) /\ mx B = map round (firstn (cnnz A) (cx A)) /\
    (mp B = firstn (S (cn A)) (cp A) <-> (forall c, c < cn A -> (cp A).[c] < (cp A).[S c]) \/ (cp A).[cn A - 1] = 0).
Proof.
  intros Hd Hm Hn Hz HW HX HZ HP. destruct (C94_round_trip zero zero ofZ round A HW HX HZ HP) as (toks & B & W & R & H).
  destruct (C163_written A _ _ _ toks fuel Hd Hm Hn Hz W) as (out & W' & R'). exists out, B. rewrite R', R. auto.
Qed.

(** no file, no banner, no sizes *)
Theorem C163_no_header fuel : read_mtx_file zero scan_dbl fuel None = Err Throw /\
  (forall f code t r, mm_read_banner f = Ok (code, t, r) -> code <> 0%Z -> read_mtx_file zero scan_dbl fuel (Some f) = Ok None) /\
  (forall f t r code sz r', mm_read_banner f = Ok (0%Z, t, r) -> mm_read_mtx_crd_size fuel r = Ok (code, sz, r') -> code <> 0%Z ->
     read_mtx_file zero scan_dbl fuel (Some f) = Err Throw).
Proof.
  splits; [reflexivity| |].
  - intros f code t r E N. unfold read_mtx_file. rewrite E. cbn [bind]. apply Z.eqb_neq in N. now rewrite N.
  - intros f t r code sz r' E E' N. unfold read_mtx_file. rewrite E. cbn [bind Z.eqb negb]. rewrite E'. cbn [bind]. apply Z.eqb_neq in N. now rewrite N.
Qed.

(** the object, the format and the field named by the banner do not matter *)
Theorem C163_banner_ignored t t' cs m n nnz f file file' fuel : known t -> known t' -> tc3 t = tc3 t' -> Forall comment cs ->
  short (Z.of_nat m) -> short (Z.of_nat n) -> short (Z.of_nat nnz) -> mtx_text t cs m n nnz f file -> mtx_text t' cs m n nnz f file' ->
  read_mtx_file zero scan_dbl fuel (Some file) = read_mtx_file zero scan_dbl fuel (Some file').
Proof.
  intros Hk Hk' E Hc Hm Hn Hz HT HT'. rewrite (read_text t cs m n nnz f file fuel), (read_text t' cs m n nnz f file' fuel) by auto.
  unfold mm_is_symmetric. now rewrite E.
Qed.
End C163.
Print Assumptions C163_layout.
Print Assumptions C163_unreadable.
Print Assumptions C163_written.
Print Assumptions C163_round_trip.
Print Assumptions C163_no_header.
Print Assumptions C163_banner_ignored.

(** whole numbers stand for the doubles: a file on few lines with a comment; the same with a word in it *)
Example C163_case_layout :
  entries scan_int [] (chars "1 1" ++ [NL] ++ chars "5 2 1 -6   2" ++ [NL] ++ chars "2 7 ") [(1, 1, 5); (2, 1, -6); (2, 2, 7)]%Z /\
  read_mtx_file 0%Z scan_int 0 (Some (chars "%%MatrixMarket matrix coordinate real symmetric" ++ [NL] ++ chars "% a comment" ++ [NL] ++ chars "2 2 3" ++ [NL] ++
    chars "1 1" ++ [NL] ++ chars "5 2 1 -6   2" ++ [NL] ++ chars "2 7 ")) = Ok (Some (mkMtx 2 2 3 (-1)%Z [0; 2; 3] [0; 1; 1]%Z [5; -6; 7]%Z)).
Proof.
  split; [|vm_compute; reflexivity].
  assert (D : forall d, Forall digit [d] -> literal [d] (Z.of_nat (value [d]))) by (intros d Hd; now constructor).
  assert (B0 : blank []) by (intros x []).
  assert (B1 : blank [SP]) by exact blank_SP.
  assert (G : forall d, (48 <=? nat_of_ascii d) && (nat_of_ascii d <=? 57) = true -> literal [d] (Z.of_nat (value [d]))).
  { intros d Hd. apply D. constructor; [|constructor]. unfold digit. lia. }
  apply (E_cons scan_int [] [] ["1"%char] 1%Z [SP] ["1"%char] 1%Z (NL :: ["5"%char]) 5%Z (SP :: chars "2 1 -6   2" ++ [NL] ++ chars "2 7 ")); auto; try discriminate;
    try (apply (G "1"%char); reflexivity); try reflexivity; [exact white_NL|].
  apply (E_cons scan_int [] [SP] ["2"%char] 2%Z [SP] ["1"%char] 1%Z (chars " -6") (-6)%Z (chars "   2" ++ [NL] ++ chars "2 7 ")); auto; try discriminate;
    try (apply (G "2"%char); reflexivity); try (apply (G "1"%char); reflexivity); try reflexivity; [exact white_SP|].
  apply (E_cons scan_int [] (chars "   ") ["2"%char] 2%Z [NL] ["2"%char] 2%Z (chars " 7") 7%Z [SP]); auto; try discriminate;
    try (apply (G "2"%char); reflexivity); try reflexivity.
  - intros x [<-|[<-|[<-|[]]]]; exact white_SP.
  - intros x [<-|[]]; exact white_NL.
  - exact white_SP.
  - change [SP] with ([SP] ++ [] : text). now constructor.
Qed.
Example C163_case_unreadable : unreadable (chars "x 1 1") /\
  read_mtx_file 0%Z scan_int 0 (Some (chars "%%MatrixMarket matrix coordinate real general" ++ [NL] ++ chars "2 2 3" ++ [NL] ++ chars "1 1 5" ++ [NL] ++ chars "x 1 1")) =
  Ok (Some (mkMtx 2 2 3 0%Z [0; 1; 3] [0; -1; -1]%Z [5; 0; 0]%Z)).
Proof. split; [|vm_compute; reflexivity]. cbn. unfold stuck, white, digit. cbn. splits; try discriminate; lia. Qed.
Example C163_case_written : dbl_ok scan_int show_int (fun z => z) /\
  CSC_to_mtx_file show_int (mkCSC 2 2 3 false 0%Z [0; 2; 3] [0; 1; 1] [5; -6; 7]%Z) =
    Ok (chars "%%MatrixMarket matrix coordinate real general" ++ [NL] ++ chars "2 2 3" ++ [NL] ++ chars "1 1 5" ++ [NL] ++ chars "2 1 -6" ++ [NL] ++ chars "2 2 7" ++ [NL]) /\
  read_mtx_file 0%Z scan_int 0 (Some (chars "%%MatrixMarket matrix coordinate real general" ++ [NL] ++ chars "2 2 3" ++ [NL] ++ chars "1 1 5" ++ [NL] ++ chars "2 1 -6" ++ [NL] ++ chars "2 2 7" ++ [NL])) =
    Ok (Some (mkMtx 2 2 3 0%Z [0; 2; 3] [0; 1; 1]%Z [5; -6; 7]%Z)).
Proof.
  splits; try (vm_compute; reflexivity).
  intros v rest Hr. exact (scan_int_literal [SP] (show_int v) v rest blank_SP (show_int_literal v) Hr).
Qed.
Example C163_case_headers : exists t r, mm_read_banner (chars "%%MatrixMarket vector") = Ok (12%Z, t, r) /\
  read_mtx_file 0%Z scan_int 1 (Some (chars "%%MatrixMarket vector")) = Ok None /\
  read_mtx_file 0%Z scan_int 1 (Some (chars "%%MatrixMarket matrix array pattern general" ++ [NL])) = Err Throw /\
  read_mtx_file 0%Z scan_int 1 (Some (chars "%%MatrixMarket matrix array pattern general" ++ [NL] ++ chars "1 1 1" ++ [NL] ++ chars "1 1 4")) =
    Ok (Some (mkMtx 1 1 1 0%Z [0; 1] [0]%Z [4]%Z)).
Proof. do 2 eexists. splits; vm_compute; reflexivity. Qed.
