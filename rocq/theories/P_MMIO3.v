(** C158, continued: what a short size line and a long comment do, in general (utils/external/mmio.cpp 170-217). *)
From Coq Require Import Ascii String.
From Coq Require Import ZifyBool ZifyNat.
From Verif Require Import Base M_MMIO L_MMIO P_MMIO.
Local Open Scope nat_scope.
Import ListNotations.

Definition no_digit (s : text) : Prop := match s with [] => True | c :: _ => ~ digit c end.

Lemma scan_int_prefix b w z r : blank b -> literal w z -> no_digit r -> scan_int (b ++ w ++ r)%list = Got z r.
Proof.
  intros Hb Hw Hr. unfold scan_int. rewrite skip_ws_blank by auto.
  destruct Hw as [ds Hne Hd|ds Hne Hd|ds Hne Hd].
  - destruct ds as [|d ds]; [easy|]. inversion Hd; subst. cbn [app]. rewrite skip_ws_stop by (now apply digit_not_white).
    rewrite (proj2 (is_digit_digit d)) by auto. change (d :: ds ++ r)%list with ((d :: ds) ++ r)%list.
    now rewrite scan_digits_spec.
  - destruct ds as [|d ds]; [easy|]. inversion Hd; subst. cbn [app]. rewrite skip_ws_stop by apply not_white_minus.
    change (is_digit "-") with false. cbv iota. destruct (ascii_dec "-" "-") as [_|n]; [|easy].
    rewrite (proj2 (is_digit_digit d)) by auto. change (d :: ds ++ r)%list with ((d :: ds) ++ r)%list.
    now rewrite scan_digits_spec.
  - destruct ds as [|d ds]; [easy|]. inversion Hd; subst. cbn [app]. rewrite skip_ws_stop by apply not_white_plus.
    change (is_digit "+") with false. cbv iota. destruct (ascii_dec "+" "-") as [n|_]; [discriminate n|].
    destruct (ascii_dec "+" "+") as [_|n]; [|easy].
    rewrite (proj2 (is_digit_digit d)) by auto. change (d :: ds ++ r)%list with ((d :: ds) ++ r)%list.
    now rewrite scan_digits_spec.
Qed.

(** A size line with fewer than three numbers is thrown away: the sizes are the next three numbers of the file, the last one
    cut off where it stops being an integer - those of the first entry. *)
Theorem C158_entry_as_sizes : forall fuel cs f line ws b1 w1 b2 w2 b3 w3 M N nz rest,
  Forall comment cs -> first_line f line (b1 ++ w1 ++ b2 ++ w2 ++ b3 ++ w3 ++ rest)%list -> nth_error line 0 <> Some "%"%char ->
  words_of line ws -> too_few 3 ws ->
  blank b1 -> blank b2 -> b2 <> [] -> blank b3 -> b3 <> [] -> no_digit rest -> literal w1 M -> literal w2 N -> literal w3 nz -> 0 < fuel ->
  mm_read_mtx_crd_size fuel (concat cs ++ f)%list = Ok (0%Z, [M; N; nz], rest).
Proof.
  intros fuel cs f line ws b1 w1 b2 w2 b3 w3 M N nz rest Hc Hf Hp Hws Hfew Hb1 Hb2 Hn2 Hb3 Hn3 He L1 L2 L3 Hfu.
  pose proof (scan_ints_few 3 line ws Hws Hfew) as Hs. unfold mm_read_mtx_crd_size, read_sizes. cbv zeta.
  rewrite (skip_comments_ok cs _ f line _ Hc Hf Hp) by lia. cbn [bind].
  destruct (scan_ints 3 line) as [[zs e] r] eqn:E. cbn [fst] in Hs.
  destruct (length zs =? 3) eqn:El; [apply Nat.eqb_eq in El; lia|]. clear El.
  destruct fuel as [|fuel]; [lia|].
  assert (Hh : forall b r : text, blank b -> b <> [] -> ends (b ++ r)%list).
  { intros [|c b] q Hb Hn; [easy|]. cbn. apply Hb. now left. }
  assert (S1 : scan_ints 3 (b1 ++ w1 ++ b2 ++ w2 ++ b3 ++ w3 ++ rest)%list = ([M; N; nz], false, rest)).
  { cbn [scan_ints]. rewrite (scan_int_literal b1 w1 M) by auto. rewrite (scan_int_literal b2 w2 N) by auto.
    now rewrite (scan_int_prefix b3 w3 nz). }
  rewrite S1. cbn [length Nat.eqb]. f_equal. f_equal. f_equal. unfold assign. cbn [length]. rewrite skipn_all2; [reflexivity|].
  rewrite app_length, skipn_length, repeat_length. lia.
Qed.
Print Assumptions C158_entry_as_sizes.

Lemma get_chars_shorter : forall k f, length (snd (get_chars k f)) <= length f.
Proof.
  induction k as [|k IH]; intros f; [cbn; lia|]. destruct f as [|c f]; [cbn; lia|]. cbn [get_chars]. destruct (ascii_dec c NL); [cbn; lia|].
  specialize (IH f). destruct (get_chars k f) as [l r]. cbn in *. lia.
Qed.
Lemma get_chars_cons k c f : exists l r, get_chars (S k) (c :: f) = (c :: l, r) /\ length r <= length f.
Proof.
  cbn [get_chars]. destruct (ascii_dec c NL) as [E|E]; [exists [], f; auto|]. pose proof (get_chars_shorter k f) as G. destruct (get_chars k f) as [l r]. exists l, r. auto.
Qed.
Lemma fgets_cons c f : exists l r, fgets MM_MAX_LINE_LENGTH (c :: f) = Some (c :: l, r) /\ length r <= length f.
Proof.
  unfold fgets. assert (E : exists k, MM_MAX_LINE_LENGTH - 1 = S k) by (exists 1023; reflexivity). destruct E as (k & ->).
  destruct (get_chars_cons k c f) as (l & r & E & H). exists l, r. now rewrite E.
Qed.
Lemma skip_comments_fuel : forall fuel fuel' f, length f < fuel -> length f < fuel' -> skip_comments fuel f = skip_comments fuel' f.
Proof.
  induction fuel as [|fuel IH]; intros [|fuel'] f H H'; try lia. cbn [skip_comments]. destruct f as [|c f]; [reflexivity|].
  destruct (fgets_cons c f) as (l & r & E & G). rewrite E. cbn [length] in *. unfold rd. cbn [app nth_error bind]. destruct (is c "%"); [apply IH; lia|reflexivity].
Qed.

(** Of a comment longer than the buffer the first 1024 characters are skipped; the rest of it is read as if the file started
    there. *)
Theorem C158_long_comment : forall vars fuel l f, ~ In NL l -> length l = 1023 ->
  read_sizes vars fuel ("%"%char :: l ++ f)%list = read_sizes vars fuel f.
Proof.
  intros vars fuel l f Hn Hl. unfold read_sizes. cbv zeta.
  assert (E : skip_comments (S (length ("%"%char :: l ++ f)%list)) ("%"%char :: l ++ f)%list = skip_comments (S (length f)) f); [|now rewrite E].
  change ("%"%char :: l ++ f)%list with (("%"%char :: l) ++ f)%list. set (n := length (("%"%char :: l) ++ f)%list).
  assert (En : n = 1024 + length f) by (unfold n; rewrite app_length; cbn [length]; lia). clearbody n.
  cbn [skip_comments]. rewrite (fgets_spec _ ("%"%char :: l) f).
  - unfold rd. cbn [app nth_error bind]. change (is "%" "%") with true. cbv iota. change (skip_comments n f = skip_comments (S (length f)) f). apply skip_comments_fuel; lia.
  - unfold first_line. splits; try (cbn [length]; lia); try discriminate; try reflexivity.
    intros i Hi E. apply nth_error_In in E. destruct E as [E|E]; [discriminate E|auto].
Qed.
Print Assumptions C158_long_comment.

Example C158_entry_as_sizes_case : mm_read_mtx_crd_size 1 (chars "% x" ++ [NL] ++ chars "5 5" ++ [NL] ++ chars "4 2 7.5" ++ [NL])%list = Ok (0%Z, [4; 2; 7]%Z, (chars ".5" ++ [NL])%list).
Proof. vm_compute. reflexivity. Qed.
Example C158_long_comment_case : mm_read_mtx_crd_size 1 ("%"%char :: repeat "-"%char 1023 ++ chars "8 8 9" ++ [NL] ++ chars "3 3 4" ++ [NL])%list = Ok (0%Z, [8; 8; 9]%Z, (chars "3 3 4" ++ [NL])%list).
Proof. unfold mm_read_mtx_crd_size. rewrite C158_long_comment; [vm_compute; reflexivity| |apply repeat_length]. intros H. apply repeat_spec in H. discriminate. Qed.
