(** C157, C158: the banner and the size line of Matrix Market files (utils/external/mmio.cpp). *)
From Coq Require Import Ascii String Decimal DecimalNat.
From Coq Require Import ZifyBool ZifyNat.
From Verif Require Import Base M_MMIO L_MMIO.
Local Open Scope nat_scope.
Import ListNotations.

(** * Specification (with [words_of], [first_line], [literal] and [comment] of L_MMIO.v) *)

(** the names of the four parts of a banner and their letters *)
Definition formats := [(chars "coordinate", "C"%char); (chars "array", "A"%char)].
Definition fields := [(chars "real", "R"%char); (chars "complex", "C"%char); (chars "pattern", "P"%char); (chars "integer", "I"%char)].
Definition symmetries := [(chars "general", "G"%char); (chars "symmetric", "S"%char); (chars "hermitian", "H"%char); (chars "skew-symmetric", "K"%char)].

(** a word spelt with capital or small letters *)
Definition letters := combine (chars "ABCDEFGHIJKLMNOPQRSTUVWXYZ") (chars "abcdefghijklmnopqrstuvwxyz").
Definition spelt (w s : text) : Prop := Forall2 (fun c d => c = d \/ In (c, d) letters) w s.

(** the words of a banner line that says the type (M, a, b, c) *)
Definition says (ws : list text) (a b c : ascii) : Prop :=
  exists w1 w2 w3 w4 w5 more, ws = w1 :: w2 :: w3 :: w4 :: w5 :: more /\
    (exists q, w1 = (chars "%%MatrixMarket" ++ q)%list) /\ spelt w2 (chars "matrix") /\
    (exists s, spelt w3 s /\ In (s, a) formats) /\ (exists s, spelt w4 s /\ In (s, b) fields) /\ (exists s, spelt w5 s /\ In (s, c) symmetries).

Definition known (t : typecode) : Prop :=
  tc0 t = "M"%char /\ In (tc1 t) (map snd formats) /\ In (tc2 t) (map snd fields) /\ In (tc3 t) (map snd symmetries).

(** * C157 *)
Lemma prefix_spec w : text_eqb (firstn (length MatrixMarketBanner) w) MatrixMarketBanner = true <-> exists q, w = (chars "%%MatrixMarket" ++ q)%list.
Proof.
  rewrite text_eqb_eq. split.
  - intros E. exists (skipn (length MatrixMarketBanner) w). change (chars "%%MatrixMarket") with MatrixMarketBanner.
    rewrite <- E at 1. symmetry. apply firstn_skipn.
  - intros (q & ->). rewrite firstn_app, firstn_all, Nat.sub_diag, firstn_O. apply app_nil_r.
Qed.

Definition look (s : text) (tb : list (text * ascii)) : option ascii :=
  match find (fun e => text_eqb s (fst e)) tb with Some e => Some (snd e) | None => None end.
Lemma look_spec s a tb : NoDup (map fst tb) -> (look s tb = Some a <-> In (s, a) tb).
Proof.
  unfold look. induction tb as [|[k v] tb IH]; intros Hn.
  - cbn. easy.
  - cbn [find fst]. inversion Hn; subst. cbn in H1. destruct (text_eqb s k) eqn:E.
    + apply text_eqb_eq in E. subst. cbn. split; [intros [= ->]; auto|]. intros [[= ->]|H]; [reflexivity|].
      exfalso. apply H1. now apply (in_map fst) in H.
    + rewrite IH by auto. cbn. split; [auto|]. intros [[= -> ->]|H]; auto. rewrite text_eqb_refl in E. discriminate.
Qed.
Lemma nd_formats : NoDup (map fst formats).
Proof. unfold formats. cbn [map fst]. repeat constructor; cbn; intuition discriminate. Qed.
Lemma nd_fields : NoDup (map fst fields).
Proof. unfold fields. cbn [map fst]. repeat constructor; cbn; intuition discriminate. Qed.
Lemma nd_symmetries : NoDup (map fst symmetries).
Proof. unfold symmetries. cbn [map fst]. repeat constructor; cbn; intuition discriminate. Qed.

(** the same with the function tolower *)
Definition says_lower (ws : list text) (a b c : ascii) : Prop :=
  exists w1 w2 w3 w4 w5 more, ws = w1 :: w2 :: w3 :: w4 :: w5 :: more /\
    (exists q, w1 = (chars "%%MatrixMarket" ++ q)%list) /\ lower w2 = chars "matrix" /\
    In (lower w3, a) formats /\ In (lower w4, b) fields /\ In (lower w5, c) symmetries.

Definition capital (d : ascii) : bool := existsb (fun p => if ascii_dec (fst p) d then true else false) letters.
Definition all_chars : text := map ascii_of_nat (seq 0 256).
Lemma In_all_chars c : In c all_chars.
Proof. unfold all_chars. apply in_map_iff. exists (nat_of_ascii c). split; [apply ascii_nat_embedding|]. apply in_seq. pose proof (nat_ascii_bounded c). lia. Qed.
Definition pair_dec : forall x y : ascii * ascii, {x = y} + {x <> y}.
Proof. intros [a b] [c d]. destruct (ascii_dec a c), (ascii_dec b d); subst; (left; reflexivity) || (right; congruence). Defined.
Definition letter_okb (c d : ascii) : bool :=
  capital d || Bool.eqb (if ascii_dec (lower_char c) d then true else false) ((if ascii_dec c d then true else false) || (if in_dec pair_dec (c, d) letters then true else false)).
Lemma all_letters : forallb (fun c => forallb (letter_okb c) all_chars) all_chars = true.
Proof. vm_compute. reflexivity. Qed.
Lemma lower_char_spec c d : capital d = false -> (lower_char c = d <-> c = d \/ In (c, d) letters).
Proof.
  intros Hd. pose proof all_letters as H. rewrite forallb_forall in H. specialize (H c (In_all_chars c)). cbv beta in H. rewrite forallb_forall in H.
  specialize (H d (In_all_chars d)). unfold letter_okb in H. rewrite Hd in H. cbn [orb] in H. apply Bool.eqb_prop in H.
  destruct (ascii_dec (lower_char c) d), (ascii_dec c d), (in_dec pair_dec (c, d) letters); cbn [orb] in H; try discriminate; tauto.
Qed.
Lemma spelt_lower w : forall s, forallb (fun d => negb (capital d)) s = true -> (spelt w s <-> lower w = s).
Proof.
  unfold spelt, lower. induction w as [|c w IH]; intros [|d s] Hs; cbn [map].
  - split; [reflexivity|constructor].
  - split; [intros H; inversion H|discriminate].
  - split; [intros H; inversion H|discriminate].
  - cbn [forallb] in Hs. apply andb_prop in Hs. destruct Hs as [Hd Hs]. apply Bool.negb_true_iff in Hd. split.
    + intros H. inversion H as [|? ? ? ? H1 H2]; subst. f_equal; [now apply lower_char_spec|now apply IH].
    + intros [= H1 H2]. constructor; [now apply lower_char_spec|now apply IH].
Qed.
Lemma spelt_in w a (tb : list (text * ascii)) : forallb (fun e => forallb (fun d => negb (capital d)) (fst e)) tb = true -> ((exists s, spelt w s /\ In (s, a) tb) <-> In (lower w, a) tb).
Proof.
  intros Ht. rewrite forallb_forall in Ht. split.
  - intros (s & Hs & Hi). specialize (Ht _ Hi). apply spelt_lower in Hs; [now rewrite Hs|exact Ht].
  - intros Hi. exists (lower w). split; [|exact Hi]. apply spelt_lower; [exact (Ht _ Hi)|reflexivity].
Qed.
Lemma says_iff ws a b c : says ws a b c <-> says_lower ws a b c.
Proof.
  assert (F1 : forallb (fun e : text * ascii => forallb (fun d => negb (capital d)) (fst e)) formats = true) by (vm_compute; reflexivity).
  assert (F2 : forallb (fun e : text * ascii => forallb (fun d => negb (capital d)) (fst e)) fields = true) by (vm_compute; reflexivity).
  assert (F3 : forallb (fun e : text * ascii => forallb (fun d => negb (capital d)) (fst e)) symmetries = true) by (vm_compute; reflexivity).
  assert (F4 : forallb (fun d => negb (capital d)) (chars "matrix") = true) by (vm_compute; reflexivity).
  split; intros (w1 & w2 & w3 & w4 & w5 & more & E & H1 & H2 & H3 & H4 & H5); exists w1, w2, w3, w4, w5, more; (split; [exact E|split; [exact H1|]]);
    (split; [now apply (spelt_lower w2 _ F4)|split; [now apply (spelt_in w3 a _ F1)|split; [now apply (spelt_in w4 b _ F2)|now apply (spelt_in w5 c _ F3)]]]).
Qed.

(** the function on the five words *)
Definition on_words (w1 w2 w3 w4 w5 : text) : Z * typecode :=
  if negb (text_eqb (firstn (length MatrixMarketBanner) w1) MatrixMarketBanner) then (14%Z, mm_clear_typecode)
  else if negb (text_eqb (lower w2) MM_MTX_STR) then (15%Z, mm_clear_typecode)
  else match look (lower w3) formats with
  | None => (15%Z, mkTC "M" SP SP "G")
  | Some a => match look (lower w4) fields with
    | None => (15%Z, mkTC "M" a SP "G")
    | Some b => match look (lower w5) symmetries with
      | None => (15%Z, mkTC "M" a b "G")
      | Some c => (0%Z, mkTC "M" a b c)
      end end end.

Lemma banner_words f line rest ws : first_line f line rest -> words_of line ws -> (forall w, In w (firstn 5 ws) -> length w < 64) ->
  mm_read_banner f = Ok (match ws with w1 :: w2 :: w3 :: w4 :: w5 :: _ => on_words w1 w2 w3 w4 w5 | _ => (12%Z, mm_clear_typecode) end, rest).
Proof.
  intros Hf Hw Hl. unfold mm_read_banner. cbv zeta. rewrite (fgets_spec _ _ _ Hf).
  change MM_MAX_TOKEN_LENGTH with 64. rewrite (scan_words_ok 5 64 line ws Hw Hl). cbn [bind].
  destruct ws as [|w1 [|w2 [|w3 [|w4 [|w5 more]]]]]; try reflexivity.
  cbn [firstn]. unfold on_words.
  destruct (text_eqb (firstn (length MatrixMarketBanner) w1) MatrixMarketBanner); [|reflexivity]. cbn [negb].
  destruct (text_eqb (lower w2) MM_MTX_STR); [|reflexivity]. cbn [negb].
  unfold look. cbn [find formats fields symmetries fst snd].
  change (chars "coordinate") with MM_SPARSE_STR. change (chars "array") with MM_DENSE_STR.
  change (chars "real") with MM_REAL_STR. change (chars "complex") with MM_COMPLEX_STR.
  change (chars "pattern") with MM_PATTERN_STR. change (chars "integer") with MM_INT_STR.
  change (chars "general") with MM_GENERAL_STR. change (chars "symmetric") with MM_SYMM_STR.
  change (chars "hermitian") with MM_HERM_STR. change (chars "skew-symmetric") with MM_SKEW_STR.
  destruct (text_eqb (lower w3) MM_SPARSE_STR); [|destruct (text_eqb (lower w3) MM_DENSE_STR); [|reflexivity]];
  (destruct (text_eqb (lower w4) MM_REAL_STR); [|destruct (text_eqb (lower w4) MM_COMPLEX_STR); [|destruct (text_eqb (lower w4) MM_PATTERN_STR);
    [|destruct (text_eqb (lower w4) MM_INT_STR); [|reflexivity]]]]);
  (destruct (text_eqb (lower w5) MM_GENERAL_STR); [reflexivity|destruct (text_eqb (lower w5) MM_SYMM_STR); [reflexivity|destruct (text_eqb (lower w5) MM_HERM_STR);
    [reflexivity|destruct (text_eqb (lower w5) MM_SKEW_STR); reflexivity]]]).
Qed.

Lemma banner_lower : forall f line rest ws,
  first_line f line rest -> words_of line ws -> (forall w, In w (firstn 5 ws) -> length w < 64) ->
  exists code t, mm_read_banner f = Ok (code, t, rest) /\ In code [0; 12; 14; 15]%Z /\
    (code = 12%Z <-> length ws < 5) /\
    (code = 14%Z <-> 5 <= length ws /\ forall q, nth 0 ws [] <> (chars "%%MatrixMarket" ++ q)%list) /\
    (forall a b c, code = 0%Z /\ t = mkTC "M" a b c <-> says_lower ws a b c) /\
    (code = 0%Z -> known t).
Proof.
  intros f line rest ws Hf Hw Hl. rewrite (banner_words f line rest ws Hf Hw Hl).
  assert (Hs : length ws < 5 -> forall a b c, ~ says_lower ws a b c).
  { intros H a b c (w1 & w2 & w3 & w4 & w5 & more & -> & _). cbn in H. lia. }
  destruct ws as [|w1 [|w2 [|w3 [|w4 [|w5 more]]]]];
    try (exists 12%Z, mm_clear_typecode; splits;
         [reflexivity|cbn; tauto|cbn; lia|cbn; lia|intros a b c; split; [intros [H _]; discriminate H|intros H; exfalso; revert H; apply Hs; cbn; lia]|discriminate]).
  clear Hs. unfold on_words.
  destruct (text_eqb (firstn (length MatrixMarketBanner) w1) MatrixMarketBanner) eqn:E1; cbn [negb].
  2:{ exists 14%Z, mm_clear_typecode. splits; [reflexivity|cbn; tauto|cbn; lia| | |discriminate].
      - split; [intros _|reflexivity]. split; [cbn; lia|]. intros q Hq. cbn [nth] in Hq.
        rewrite (proj2 (prefix_spec w1)) in E1 by eauto. discriminate.
      - intros a b c. split; [intros [H _]; discriminate H|]. intros (x1 & x2 & x3 & x4 & x5 & m & [= <- _ _ _ _ _] & Hq & _).
        rewrite (proj2 (prefix_spec w1) Hq) in E1. discriminate. }
  assert (H14 : forall code : Z, code <> 14%Z -> (code = 14%Z <-> 5 <= length (w1 :: w2 :: w3 :: w4 :: w5 :: more) /\ forall q, nth 0 (w1 :: w2 :: w3 :: w4 :: w5 :: more) [] <> (chars "%%MatrixMarket" ++ q)%list)).
  { intros code Hc. split; [easy|]. intros [_ H]. apply prefix_spec in E1. destruct E1 as (q & Hq). exfalso. exact (H q Hq). }
  assert (Hbad : forall t, (forall a b c, ~ says_lower (w1 :: w2 :: w3 :: w4 :: w5 :: more) a b c) ->
    exists code t0, @Ok (Z * typecode * text) (15%Z, t, rest) = Ok (code, t0, rest) /\ In code [0; 12; 14; 15]%Z /\
    (code = 12%Z <-> length (w1 :: w2 :: w3 :: w4 :: w5 :: more) < 5) /\
    (code = 14%Z <-> 5 <= length (w1 :: w2 :: w3 :: w4 :: w5 :: more) /\ forall q, nth 0 (w1 :: w2 :: w3 :: w4 :: w5 :: more) [] <> (chars "%%MatrixMarket" ++ q)%list) /\
    (forall a b c, code = 0%Z /\ t0 = mkTC "M" a b c <-> says_lower (w1 :: w2 :: w3 :: w4 :: w5 :: more) a b c) /\
    (code = 0%Z -> known t0)).
  { intros t H. exists 15%Z, t. splits; [reflexivity|cbn; tauto|cbn [length]; lia|apply H14; lia| |discriminate].
    intros a b c. split; [intros [A _]; discriminate A|]. intros A. exfalso. exact (H a b c A). }
  destruct (text_eqb (lower w2) MM_MTX_STR) eqn:E2; cbn [negb].
  2:{ apply Hbad. intros a b c (x1 & x2 & x3 & x4 & x5 & m & [= _ <- _ _ _ _] & _ & Hq & _).
      rewrite (proj2 (text_eqb_eq (lower w2) MM_MTX_STR) Hq) in E2. discriminate. }
  destruct (look (lower w3) formats) as [a|] eqn:E3.
  2:{ apply Hbad. intros a b c (x1 & x2 & x3 & x4 & x5 & m & [= _ _ <- _ _ _] & _ & _ & Hq & _).
      apply (look_spec _ _ _ nd_formats) in Hq. congruence. }
  destruct (look (lower w4) fields) as [b|] eqn:E4.
  2:{ apply Hbad. intros a' b c (x1 & x2 & x3 & x4 & x5 & m & [= _ _ _ <- _ _] & _ & _ & _ & Hq & _).
      apply (look_spec _ _ _ nd_fields) in Hq. congruence. }
  destruct (look (lower w5) symmetries) as [c|] eqn:E5.
  2:{ apply Hbad. intros a' b' c (x1 & x2 & x3 & x4 & x5 & m & [= _ _ _ _ <- _] & _ & _ & _ & _ & Hq).
      apply (look_spec _ _ _ nd_symmetries) in Hq. congruence. }
  exists 0%Z, (mkTC "M" a b c). splits; [reflexivity|cbn; tauto|cbn [length]; lia|apply H14; lia| |].
  - intros a' b' c'. split.
    + intros [_ [= <- <- <-]]. exists w1, w2, w3, w4, w5, more. splits; [reflexivity|now apply prefix_spec|now apply text_eqb_eq| | |].
      * now apply look_spec; [apply nd_formats|].
      * now apply look_spec; [apply nd_fields|].
      * now apply look_spec; [apply nd_symmetries|].
    + intros (x1 & x2 & x3 & x4 & x5 & m & [= <- <- <- <- <- <-] & _ & _ & H3 & H4 & H5). split; [reflexivity|].
      apply (look_spec _ _ _ nd_formats) in H3. apply (look_spec _ _ _ nd_fields) in H4. apply (look_spec _ _ _ nd_symmetries) in H5. congruence.
  - intros _. unfold known. cbn [tc0 tc1 tc2 tc3]. splits; [reflexivity|..].
    + apply (look_spec _ _ _ nd_formats) in E3. apply in_map_iff. eexists; split; [|eassumption]. reflexivity.
    + apply (look_spec _ _ _ nd_fields) in E4. apply in_map_iff. eexists; split; [|eassumption]. reflexivity.
    + apply (look_spec _ _ _ nd_symmetries) in E5. apply in_map_iff. eexists; split; [|eassumption]. reflexivity.
Qed.

Theorem C157_banner : forall f line rest ws,
  first_line f line rest -> words_of line ws -> (forall w, In w (firstn 5 ws) -> length w < 64) ->
  exists code t, mm_read_banner f = Ok (code, t, rest) /\ In code [0; 12; 14; 15]%Z /\
    (code = 12%Z <-> length ws < 5) /\
    (code = 14%Z <-> 5 <= length ws /\ forall q, nth 0 ws [] <> (chars "%%MatrixMarket" ++ q)%list) /\
    (forall a b c, code = 0%Z /\ t = mkTC "M" a b c <-> says ws a b c) /\
    (code = 0%Z -> known t).
Proof.
  intros f line rest ws Hf Hw Hl. destruct (banner_lower f line rest ws Hf Hw Hl) as (code & t & H1 & H2 & H3 & H4 & H5 & H6).
  exists code, t. splits; auto; try tauto; intros a b c; rewrite says_iff; apply H5.
Qed.
Print Assumptions C157_banner.

(** one of the first five words does not fit into its buffer of 64 characters *)
Theorem C157_long_word_out_of_bounds : forall f line rest ws i w,
  first_line f line rest -> words_of line ws -> i < 5 -> nth_error ws i = Some w -> 64 <= length w ->
  mm_read_banner f = Err OOB.
Proof.
  intros f line rest ws i w Hf Hw Hi Hn Hl. unfold mm_read_banner. cbv zeta. rewrite (fgets_spec _ _ _ Hf).
  change MM_MAX_TOKEN_LENGTH with 64. now rewrite (scan_words_long 5 64 line ws i w Hw Hi Hn Hl).
Qed.
Print Assumptions C157_long_word_out_of_bounds.

(** every non-empty file has a first line with words, so the two theorems cover all files; the empty file has no banner *)
Theorem C157_all_files : forall f, f = [] /\ mm_read_banner f = Ok (12%Z, mm_clear_typecode, []) \/
  exists line rest ws, first_line f line rest /\ words_of line ws.
Proof.
  intros [|c f]; [left; split; reflexivity|right].
  destruct (first_line_exists (c :: f)) as (line & rest & H); [easy|].
  destruct (words_exist line) as (ws & Hw). eauto 6.
Qed.
Print Assumptions C157_all_files.

(** what is written is read back, and yet the writer reports that it could not write *)
Theorem C157_banner_roundtrip : forall t rest, known t ->
  exists out, mm_write_banner t = Ok (17%Z, out) /\ mm_read_banner (out ++ rest)%list = Ok (0%Z, t, rest).
Proof.
  intros [a b c d] rest (H0 & H1 & H2 & H3). cbn [tc0 tc1 tc2 tc3 map snd formats fields symmetries In] in *. subst a.
  destruct H1 as [<-|[<-|[]]]; destruct H2 as [<-|[<-|[<-|[<-|[]]]]]; destruct H3 as [<-|[<-|[<-|[<-|[]]]]];
    (eexists; split; [reflexivity|]; reflexivity).
Qed.
Print Assumptions C157_banner_roundtrip.

(** a type without the letter M: an uninitialised pointer is printed, or a null pointer if another letter is unknown *)
Theorem C157_unknown_type : forall t, ~ known t -> mm_write_banner t = Err Uninit.
Proof.
  intros [a b c d] H. unfold mm_write_banner, mm_typecode_to_str, mm_is_sparse, mm_is_dense, mm_is_real, mm_is_complex, mm_is_pattern,
    mm_is_integer, mm_is_general, mm_is_symmetric, mm_is_hermitian, mm_is_skew, mm_is_matrix, is. cbn [tc0 tc1 tc2 tc3].
  unfold known in H. cbn [tc0 tc1 tc2 tc3 map snd formats fields symmetries In] in H.
  repeat match goal with |- context [ascii_dec ?x ?y] => destruct (ascii_dec x y) as [->|] end; cbn [bind]; try reflexivity;
    exfalso; apply H; repeat split; auto 10.
Qed.
Print Assumptions C157_unknown_type.

(** the types that the Matrix Market format allows *)
Definition allowed (t : typecode) : Prop :=
  tc0 t = "M"%char /\ ~ (tc1 t = "A"%char /\ tc2 t = "P"%char) /\ ~ (tc2 t = "R"%char /\ tc3 t = "H"%char) /\
  ~ (tc2 t = "P"%char /\ In (tc3 t) ["H"%char; "K"%char]).
Theorem C157_valid : forall t, mm_is_valid t = true <-> allowed t.
Proof.
  intros [a b c d]. unfold mm_is_valid, allowed, mm_is_matrix, mm_is_dense, mm_is_pattern, mm_is_real, mm_is_hermitian, mm_is_skew, is.
  cbn [tc0 tc1 tc2 tc3 In].
  repeat match goal with |- context [ascii_dec ?x ?y] => destruct (ascii_dec x y) end; cbn [negb andb orb]; intuition (congruence || eauto).
Qed.
Print Assumptions C157_valid.

Definition f_banner : text := (chars "%%MatrixMarketX  Matrix COORDINATE real	symmetric extra" ++ [NL] ++ chars "3 3 0")%list.
Example C157_case : first_line f_banner (chars "%%MatrixMarketX  Matrix COORDINATE real	symmetric extra" ++ [NL])%list (chars "3 3 0") /\
  (exists ws, words_of (chars "%%MatrixMarketX  Matrix COORDINATE real	symmetric extra" ++ [NL])%list ws /\ says ws "C" "R" "S") /\
  mm_read_banner f_banner = Ok (0%Z, mkTC "M" "C" "R" "S", chars "3 3 0").
Proof.
  splits.
  - apply nl_line_first; [cbn; intuition discriminate|cbn; lia].
  - exists [chars "%%MatrixMarketX"; chars "Matrix"; chars "COORDINATE"; chars "real"; chars "symmetric"; chars "extra"]. split.
    + change (chars "%%MatrixMarketX  Matrix COORDINATE real	symmetric extra" ++ [NL])%list with
        ([] ++ chars "%%MatrixMarketX" ++ chars "  " ++ chars "Matrix" ++ chars " " ++ chars "COORDINATE" ++ chars " " ++ chars "real" ++ chars "	" ++ chars "symmetric" ++ chars " " ++ chars "extra" ++ [NL])%list.
      repeat (constructor; [intros ? Hc; cbn in Hc; unfold white; cbn; intuition (subst; cbn; auto 10)|easy|
        intros ? Hc; cbn in Hc; unfold white; intuition (subst; cbn in *; intuition discriminate)|cbn; unfold white; cbn; tauto|]).
      constructor. intros ? Hc; cbn in Hc; unfold white; cbn; intuition (subst; cbn; auto 10).
    + do 6 eexists. splits; [reflexivity|exists (chars "X"); reflexivity|apply spelt_lower; reflexivity|apply spelt_in; cbn; auto|apply spelt_in; cbn; auto|apply spelt_in; cbn; auto].
  - vm_compute. reflexivity.
Qed.
Example C157_case_long : mm_read_banner (repeat "a"%char 64 ++ chars " b c d e")%list = Err OOB /\
  mm_read_banner (repeat "a"%char 63 ++ chars " b c d e")%list = Ok (14%Z, mm_clear_typecode, []).
Proof. vm_compute. split; reflexivity. Qed.

(** * C158 *)
Lemma assign_all zs : forall k, length zs = k -> assign (repeat 0%Z k) zs = zs.
Proof. intros k H. unfold assign. rewrite skipn_all2 by (rewrite repeat_length; lia). apply app_nil_r. Qed.

(** comment lines, then a line whose first words are the sizes (three in coordinate files, two in array files) *)
Theorem C158_sizes : forall vars fuel cs f line rest ws zs,
  Forall comment cs -> first_line f line rest -> nth_error line 0 <> Some "%"%char ->
  words_of line ws -> Forall2 literal (firstn vars ws) zs -> length zs = vars ->
  read_sizes vars fuel (concat cs ++ f)%list = Ok (0%Z, zs, rest).
Proof.
  intros vars fuel cs f line rest ws zs Hc Hf Hp Hw Hz Hl. unfold read_sizes. cbv zeta.
  rewrite (skip_comments_ok cs _ f line rest) by (auto; lia). cbn [bind].
  destruct (scan_ints_words vars line ws zs Hw Hz Hl) as (r & ->).
  rewrite Hl, Nat.eqb_refl. now rewrite assign_all.
Qed.
Print Assumptions C158_sizes.

(** a blank line instead: the sizes are the next words, wherever they are *)
Theorem C158_blank_line : forall fuel cs line b1 w1 b2 w2 b3 w3 M N nz rest f,
  Forall comment cs -> first_line (line ++ f)%list line f -> blank line ->
  f = (b1 ++ w1 ++ b2 ++ w2 ++ b3 ++ w3 ++ rest)%list -> blank b1 -> blank b2 -> b2 <> [] -> blank b3 -> b3 <> [] -> ends rest ->
  literal w1 M -> literal w2 N -> literal w3 nz -> 0 < fuel ->
  mm_read_mtx_crd_size fuel (concat cs ++ line ++ f)%list = Ok (0%Z, [M; N; nz], rest).
Proof.
  intros fuel cs line b1 w1 b2 w2 b3 w3 M N nz rest f Hc Hf Hbl E Hb1 Hb2 Hn2 Hb3 Hn3 He L1 L2 L3 Hfu.
  unfold mm_read_mtx_crd_size, read_sizes. cbv zeta.
  rewrite (skip_comments_ok cs _ (line ++ f)%list line f); auto; try lia.
  2:{ intros H. apply nth_error_In in H. apply Hbl in H. unfold white in H. cbn in H. lia. }
  cbn [bind]. assert (S0 : scan_ints 3 line = ([], true, [])).
  { cbn [scan_ints]. unfold scan_int. now rewrite skip_ws_all. }
  rewrite S0. cbn [length Nat.eqb]. destruct fuel as [|fuel]; [lia|].
  assert (Hh : forall b r : text, blank b -> b <> [] -> ends (b ++ r)%list).
  { intros [|c b] r Hb Hn; [easy|]. cbn. apply Hb. now left. }
  assert (S1 : scan_ints 3 f = ([M; N; nz], false, rest)).
  { subst f. cbn [scan_ints]. rewrite (scan_int_literal b1 w1 M) by auto. rewrite (scan_int_literal b2 w2 N) by auto.
    now rewrite (scan_int_literal b3 w3 nz). }
  rewrite S1. reflexivity.
Qed.
Print Assumptions C158_blank_line.

(** a file of comments only *)
Theorem C158_only_comments : forall fuel cs, Forall comment cs ->
  mm_read_mtx_crd_size fuel (concat cs) = Ok (12%Z, [0; 0; 0]%Z, []) /\ mm_read_mtx_array_size fuel (concat cs) = Ok (12%Z, [0; 0]%Z, []).
Proof.
  intros fuel cs Hc. unfold mm_read_mtx_crd_size, mm_read_mtx_array_size, read_sizes. cbv zeta.
  rewrite skip_comments_none by (auto; lia). split; reflexivity.
Qed.
Print Assumptions C158_only_comments.

(** the words of the line begin with fewer than [vars] numbers *)
Definition no_number (w : text) : Prop := exists c q, w = c :: q /\ ~ digit c /\ c <> "-"%char /\ c <> "+"%char.
Definition too_few (vars : nat) (ws : list text) : Prop :=
  exists pre post, ws = (pre ++ post)%list /\ length pre < vars /\ Forall (fun w => exists z, literal w z) pre /\
    match post with [] => True | w :: _ => no_number w end.

Lemma scan_ints_few : forall vars line ws, words_of line ws -> too_few vars ws -> length (fst (fst (scan_ints vars line))) < vars.
Proof.
  induction vars as [|k IH]; intros line ws Hw Hfew; [destruct Hfew as (? & ? & ? & ? & _); lia|]. cbn [scan_ints].
  inversion Hw as [b Hb|b w r ws' Hb Hne Hw' He Hr]; subst.
  - unfold scan_int. rewrite skip_ws_all by auto. cbn. lia.
  - destruct Hfew as (pre & post & E & Hl & Hf & Hp). destruct pre as [|w0 pre].
    + cbn [app] in E. subst post. destruct Hp as (c & q & -> & Hd & Hm & Hpl). unfold scan_int. rewrite skip_ws_blank by auto.
      cbn [app]. rewrite skip_ws_stop by (apply Hw'; now left).
      rewrite (proj2 (is_digit_not c)) by auto. destruct (ascii_dec c "-"); [easy|]. destruct (ascii_dec c "+"); [easy|]. cbn. lia.
    + cbn [app] in E. injection E as <- ->. inversion Hf as [|? ? (z & Hz) Hf']; subst.
      rewrite (scan_int_literal b w z r) by auto.
      specialize (IH r (pre ++ post)%list Hr). destruct (scan_ints k r) as [[zs e] q] eqn:E2. cbn [fst length] in *.
      assert (length zs < k); [|lia]. apply IH. exists pre, post. splits; auto. cbn in Hl. lia.
Qed.

(** a size line with too few numbers, followed by something that is no number: the reader does not return *)
Theorem C158_never_returns : forall vars fuel cs f line rest ws b c q,
  0 < vars -> Forall comment cs -> first_line f line rest -> nth_error line 0 <> Some "%"%char ->
  words_of line ws -> too_few vars ws ->
  rest = (b ++ c :: q)%list -> blank b -> ~ white c -> ~ digit c -> c <> "-"%char -> c <> "+"%char ->
  read_sizes vars fuel (concat cs ++ f)%list = Err Fuel.
Proof.
  intros vars fuel cs f line rest ws b c q Hv Hc Hf Hp Hws Hfew -> Hb Hw Hd Hm Hpl.
  pose proof (scan_ints_few vars line ws Hws Hfew) as Hs. unfold read_sizes. cbv zeta.
  rewrite (skip_comments_ok cs _ f line _) by eauto. cbn [bind].
  destruct (scan_ints vars line) as [[zs e] r] eqn:E. cbn [fst] in Hs.
  destruct (length zs =? vars) eqn:El; [apply Nat.eqb_eq in El; lia|]. clear El.
  assert (S0 : forall f, f = (b ++ c :: q)%list \/ f = (c :: q)%list -> scan_ints vars f = ([], false, (c :: q)%list)).
  { intros g Hg. destruct vars as [|vars]; [lia|]. cbn [scan_ints]. unfold scan_int.
    assert (skip_ws g = (c :: q)%list) as ->.
    { destruct Hg as [->| ->]; [rewrite skip_ws_blank by auto|]; now apply skip_ws_stop. }
    rewrite (proj2 (is_digit_not c)) by auto. destruct (ascii_dec c "-"); [easy|]. destruct (ascii_dec c "+"); [easy|]. reflexivity. }
  set (W := assign (repeat 0%Z vars) zs). clearbody W.
  assert (G : forall fuel W f, f = (b ++ c :: q)%list \/ f = (c :: q)%list ->
    (fix loop (fuel : nat) (V : list Z) (f : text) : res (Z * list Z * text) :=
           match fuel with
           | 0 => Err Fuel
           | S fuel =>
               let '(zs, eof, f) := scan_ints vars f in
               if eof then Ok (MM_PREMATURE_EOF, V, f)
               else if length zs =? vars then Ok (0%Z, assign V zs, f) else loop fuel (assign V zs) f
           end) fuel W f = Err Fuel).
  { induction fuel0 as [|k IH]; intros W' f' H; [reflexivity|]. rewrite (S0 f' H). cbn [length].
    destruct (0 =? vars) eqn:E0; [apply Nat.eqb_eq in E0; lia|]. apply IH. now right. }
  apply G. now left.
Qed.
Print Assumptions C158_never_returns.

(** the writers always report failure; what they write is read back, also behind comments *)
Lemma show_int_chars z c : In c (show_int z) -> ~ white c /\ c <> "%"%char.
Proof.
  intros H. split; [exact (literal_not_white _ _ _ (show_int_literal z) H)|].
  destruct (show_int_literal z) as [ds _ Hd|ds _ Hd|ds _ Hd]; rewrite Forall_forall in Hd; try destruct H as [<-|H]; try discriminate;
    apply Hd in H; intros ->; unfold digit in H; cbn in H; lia.
Qed.
Lemma words_one b z r ws : blank b -> ends r -> words_of r ws -> words_of (b ++ show_int z ++ r)%list (show_int z :: ws).
Proof.
  intros Hb He Hr. constructor; auto.
  - exact (literal_nonempty _ _ (show_int_literal z)).
  - intros c Hc. exact (proj1 (show_int_chars z c Hc)).
Qed.
Lemma words_NL : words_of [NL] [].
Proof. constructor. intros c [<-|[]]. exact white_NL. Qed.
Lemma blank_SP : blank [SP].
Proof. intros c [<-|[]]. exact white_SP. Qed.
Lemma blank_nil : blank [].
Proof. intros c []. Qed.
Lemma ends_SP r : ends (SP :: r). Proof. exact white_SP. Qed.
Lemma ends_NL r : ends (NL :: r). Proof. exact white_NL. Qed.

(** a number that fits: at most 300 digits *)
Definition short (z : Z) : Prop := length (show_int z) <= 300.

Lemma digits_length d : length (digits_of d) = Decimal.nb_digits d.
Proof. induction d; cbn; auto. Qed.
Lemma of_uint_acc_big : forall d acc, (Z.of_nat acc * 10 ^ Z.of_nat (Decimal.nb_digits d) <= Z.of_nat (Nat.of_uint_acc d acc))%Z.
Proof.
  induction d; intros acc; cbn [Nat.of_uint_acc Decimal.nb_digits]; [cbn; lia|..]; rewrite Nat2Z.inj_succ, Z.pow_succ_r by lia;
    (etransitivity; [|apply IHd]); rewrite Nat.tail_mul_spec;
    assert (0 <= 10 ^ Z.of_nat (Decimal.nb_digits d))%Z by (apply Z.pow_nonneg; lia); nia.
Qed.
Lemma unorm_D0 : forall d d', Decimal.unorm d = Decimal.D0 d' -> d' = Decimal.Nil.
Proof.
  unfold Decimal.unorm. induction d; intros d' H; cbn [Decimal.nzhead] in H; try discriminate; [now injection H as <-|now apply IHd].
Qed.
(** every int is printed with at most eleven characters *)
Lemma int_short z : (- 2 ^ 31 <= z < 2 ^ 31)%Z -> length (show_int z) <= 11.
Proof.
  intros Hz.
  assert (G : forall n, (Z.of_nat n <= 2 ^ 31)%Z -> length (show_nat n) <= 10).
  { intros n Hn. unfold show_nat. rewrite digits_length.
    assert (Ed : Decimal.unorm (Nat.to_uint n) = Nat.to_uint n) by (rewrite <- Unsigned.to_of, Unsigned.of_to; reflexivity).
    assert (En : Nat.of_uint_acc (Nat.to_uint n) 0 = n) by exact (Unsigned.of_to n).
    destruct (Nat.to_uint n) as [|d|d|d|d|d|d|d|d|d|d]; [cbn; lia|apply unorm_D0 in Ed; subst d; cbn; lia|..];
    (cbn [Nat.of_uint_acc Nat.tail_mul Nat.tail_addmul Nat.tail_add Decimal.nb_digits] in *;
     match type of En with Nat.of_uint_acc d ?k = _ => pose proof (of_uint_acc_big d k) as H end; rewrite En in H;
     destruct (Nat.le_gt_cases (S (Decimal.nb_digits d)) 10) as [|Hgt]; [assumption|exfalso];
     assert (10 ^ 10 <= 10 ^ Z.of_nat (Decimal.nb_digits d))%Z as P by (apply Z.pow_le_mono_r; lia);
     change (10 ^ 10)%Z with 10000000000%Z in P; change (2 ^ 31)%Z with 2147483648%Z in Hn; nia). }
  unfold show_int. destruct (z <? 0)%Z eqn:E; cbn [length]; pose proof (G (Z.abs_nat z) ltac:(lia)); lia.
Qed.
Corollary C158_ints_short : forall z, (- 2 ^ 31 <= z < 2 ^ 31)%Z -> short z.
Proof. intros z Hz. unfold short. pose proof (int_short z Hz). lia. Qed.
Print Assumptions C158_ints_short.

Theorem C158_crd_size_roundtrip : forall fuel cs M N nz rest, Forall comment cs -> short M -> short N -> short nz ->
  exists out, mm_write_mtx_crd_size M N nz = (17%Z, out) /\
    mm_read_mtx_crd_size fuel (concat cs ++ out ++ rest)%list = Ok (0%Z, [M; N; nz], rest).
Proof.
  intros fuel cs M N nz rest Hc HM HN Hz. unfold mm_write_mtx_crd_size. cbv zeta. eexists. split.
  - f_equal. rewrite !app_length. cbn [length].
    pose proof (literal_nonempty _ _ (show_int_literal M)). destruct (show_int M); [easy|]. cbn [length].
    destruct (_ =? 3) eqn:E; [apply Nat.eqb_eq in E; lia|reflexivity].
  - eapply (C158_sizes 3 fuel cs _ (show_int M ++ [SP] ++ show_int N ++ [SP] ++ show_int nz ++ [NL])%list rest [show_int M; show_int N; show_int nz]).
    + exact Hc.
    + replace ((show_int M ++ [SP] ++ show_int N ++ [SP] ++ show_int nz ++ [NL]) ++ rest)%list with
        ((show_int M ++ [SP] ++ show_int N ++ [SP] ++ show_int nz) ++ [NL] ++ rest)%list by (now rewrite <- !app_assoc).
      replace (show_int M ++ [SP] ++ show_int N ++ [SP] ++ show_int nz ++ [NL])%list with
        ((show_int M ++ [SP] ++ show_int N ++ [SP] ++ show_int nz) ++ [NL])%list by (now rewrite <- !app_assoc).
      apply nl_line_first.
      * rewrite !in_app_iff. cbn [In]. intros [H|[[H|[]]|[H|[[H|[]]|H]]]]; try discriminate H; apply show_int_chars in H; apply (proj1 H), white_NL.
      * rewrite !app_length. cbn [length]. unfold short in *. lia.
    + pose proof (literal_nonempty _ _ (show_int_literal M)). destruct (show_int M) as [|c l] eqn:E; [easy|]. cbn. intros [= ->].
      apply (proj2 (show_int_chars M "%"%char ltac:(rewrite E; now left))). reflexivity.
    + change (show_int M ++ [SP] ++ show_int N ++ [SP] ++ show_int nz ++ [NL])%list with
        ([] ++ show_int M ++ [SP] ++ show_int N ++ [SP] ++ show_int nz ++ [NL])%list.
      repeat (apply words_one; [first [exact blank_nil|exact blank_SP]|first [apply ends_SP|apply ends_NL]|]). exact words_NL.
    + cbn [firstn]. repeat constructor; apply show_int_literal.
    + reflexivity.
Qed.
Print Assumptions C158_crd_size_roundtrip.

Theorem C158_array_size_roundtrip : forall fuel cs M N rest, Forall comment cs -> short M -> short N ->
  exists out, mm_write_mtx_array_size M N = (17%Z, out) /\
    mm_read_mtx_array_size fuel (concat cs ++ out ++ rest)%list = Ok (0%Z, [M; N], rest).
Proof.
  intros fuel cs M N rest Hc HM HN. unfold mm_write_mtx_array_size. cbv zeta. eexists. split.
  - f_equal. rewrite !app_length. cbn [length].
    pose proof (literal_nonempty _ _ (show_int_literal M)). destruct (show_int M); [easy|]. cbn [length].
    destruct (_ =? 2) eqn:E; [apply Nat.eqb_eq in E; lia|reflexivity].
  - eapply (C158_sizes 2 fuel cs _ (show_int M ++ [SP] ++ show_int N ++ [NL])%list rest [show_int M; show_int N]).
    + exact Hc.
    + replace ((show_int M ++ [SP] ++ show_int N ++ [NL]) ++ rest)%list with
        ((show_int M ++ [SP] ++ show_int N) ++ [NL] ++ rest)%list by (now rewrite <- !app_assoc).
      replace (show_int M ++ [SP] ++ show_int N ++ [NL])%list with
        ((show_int M ++ [SP] ++ show_int N) ++ [NL])%list by (now rewrite <- !app_assoc).
      apply nl_line_first.
      * rewrite !in_app_iff. cbn [In]. intros [H|[[H|[]]|H]]; try discriminate H; apply show_int_chars in H; apply (proj1 H), white_NL.
      * rewrite !app_length. cbn [length]. unfold short in *. lia.
    + pose proof (literal_nonempty _ _ (show_int_literal M)). destruct (show_int M) as [|c l] eqn:E; [easy|]. cbn. intros [= ->].
      apply (proj2 (show_int_chars M "%"%char ltac:(rewrite E; now left))). reflexivity.
    + change (show_int M ++ [SP] ++ show_int N ++ [NL])%list with
        ([] ++ show_int M ++ [SP] ++ show_int N ++ [NL])%list.
      repeat (apply words_one; [first [exact blank_nil|exact blank_SP]|first [apply ends_SP|apply ends_NL]|]). exact words_NL.
    + cbn [firstn]. repeat constructor; apply show_int_literal.
    + reflexivity.
Qed.
Print Assumptions C158_array_size_roundtrip.

(** A size line with two numbers: the sizes are taken from the entries that follow, without an error.  A comment of more
    than 1024 characters: its tail is taken for the size line. *)
Theorem C158_wrong_sizes_refuted :
  ~ (forall fuel f line rest code zs r, first_line f line rest -> nth_error line 0 <> Some "%"%char ->
       mm_read_mtx_crd_size fuel f = Ok (code, zs, r) -> code = 0%Z ->
       exists ws, words_of line ws /\ Forall2 literal (firstn 3 ws) zs) /\
  ~ (forall fuel l f line rest ws zs code zs' r, ~ In NL l -> first_line f line rest -> words_of line ws -> Forall2 literal (firstn 3 ws) zs ->
       mm_read_mtx_crd_size fuel ("%"%char :: l ++ [NL] ++ f)%list = Ok (code, zs', r) -> zs' = zs).
Proof.
  split.
  - intros H.
    set (rest := (chars "1 1 2.5" ++ [NL])%list).
    specialize (H 1 ((chars "5 5") ++ [NL] ++ rest)%list ((chars "5 5") ++ [NL])%list rest 0%Z [1; 1; 2]%Z (chars ".5" ++ [NL])%list).
    destruct H as (ws & Hw & Hl).
    + apply nl_line_first; [cbn; intuition discriminate|cbn; lia].
    + discriminate.
    + vm_compute. reflexivity.
    + reflexivity.
    + assert (Hw' : scan_words 3 1000 (chars "5 5" ++ [NL])%list = Ok (firstn 3 ws)).
      { apply scan_words_ok; [exact Hw|]. intros w Hin. 
        assert (G : forall s ws, words_of s ws -> forall w, In w ws -> length w <= length s).
        { clear. induction 1 as [b Hb|b w r ws Hb Hne Hw He Hr IH]; intros x Hx; [easy|]. rewrite !app_length.
          destruct Hx as [<-|Hx]; [lia|]. apply IH in Hx. lia. }
        assert (In w ws) as Hin' by (rewrite <- (firstn_skipn 3 ws); apply in_or_app; now left).
        pose proof (G _ _ Hw w Hin') as Hb.
        cbn in Hb. lia. }
      assert (Hv : scan_words 3 1000 (chars "5 5" ++ [NL])%list = Ok [chars "5"; chars "5"]) by (vm_compute; reflexivity).
      rewrite Hv in Hw'. assert (Hw2 : firstn 3 ws = [chars "5"; chars "5"]) by congruence. rewrite Hw2 in Hl. inversion Hl as [|? ? ? ? _ Hl1]; subst. inversion Hl1 as [|? ? ? ? _ Hl2]; subst. inversion Hl2.
  - intros H.
    set (f := (chars "3 3 0" ++ [NL])%list).
    specialize (H 1 (repeat "a"%char 1023 ++ chars "7 7 7")%list f (chars "3 3 0" ++ [NL])%list [] [chars "3"; chars "3"; chars "0"] [3; 3; 0]%Z 0%Z [7; 7; 7]%Z f).
    assert ([7; 7; 7]%Z = [3; 3; 0]%Z); [apply H|discriminate].
    + rewrite in_app_iff. intros [E|E]; [apply repeat_spec in E; discriminate E|cbn in E; intuition discriminate].
    + unfold f. rewrite <- (app_nil_r (chars "3 3 0" ++ [NL])%list) at 1. rewrite <- app_assoc.
      apply nl_line_first; [cbn; intuition discriminate|cbn; lia].
    + change (chars "3 3 0" ++ [NL])%list with ([] ++ show_int 3 ++ [SP] ++ show_int 3 ++ [SP] ++ show_int 0 ++ [NL])%list.
      change [chars "3"; chars "3"; chars "0"] with [show_int 3; show_int 3; show_int 0].
      repeat (apply words_one; [first [exact blank_nil|exact blank_SP]|first [apply ends_SP|apply ends_NL]|]). exact words_NL.
    + cbn [firstn]. apply Forall2_cons; [exact (show_int_literal 3)|apply Forall2_cons; [exact (show_int_literal 3)|apply Forall2_cons; [exact (show_int_literal 0)|apply Forall2_nil]]].
    + vm_compute. reflexivity.
Qed.
Print Assumptions C158_wrong_sizes_refuted.

Example C158_case : Forall comment [("%"%char :: chars " a comment" ++ [NL])%list; ("%"%char :: [NL])%list] /\
  mm_read_mtx_crd_size 0 (chars "% a comment" ++ [NL] ++ chars "%" ++ [NL] ++ chars " 12 +7   -3 x" ++ [NL] ++ chars "1 1 5")%list = Ok (0%Z, [12; 7; -3]%Z, chars "1 1 5") /\
  mm_write_mtx_crd_size 12 7 30 = (17%Z, (chars "12 7 30" ++ [NL])%list) /\
  mm_read_mtx_crd_size 50 (chars "12 7" ++ [NL] ++ chars "x" ++ [NL])%list = Err Fuel.
Proof.
  splits; [|vm_compute; reflexivity..].
  repeat constructor; [exists (chars " a comment")|exists []]; splits; try reflexivity; cbn; try lia; intuition discriminate.
Qed.
