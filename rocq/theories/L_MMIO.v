(** Lemmas about the character level model of mmio.cpp. *)
From Coq Require Import Ascii String Decimal DecimalNat.
From Coq Require Import ZifyBool ZifyNat.
From Verif Require Import Base M_MMIO.
Local Open Scope nat_scope.
Import ListNotations.

(** * Specification of lines, words and numbers *)

(** white space: tab, newline, vertical tab, form feed, carriage return, space *)
Definition white (c : ascii) : Prop := In (nat_of_ascii c) [9; 10; 11; 12; 13; 32].
Definition blank (s : text) : Prop := forall c, In c s -> white c.
Definition ends (s : text) : Prop := match s with [] => True | c :: _ => white c end.

(** the words of a text *)
Inductive words_of : text -> list text -> Prop :=
| W_nil b : blank b -> words_of b []
| W_cons b w r ws : blank b -> w <> [] -> (forall c, In c w -> ~ white c) -> ends r -> words_of r ws ->
    words_of (b ++ w ++ r)%list (w :: ws).

(** [line] is the first line of the file, with its newline, cut after 1024 characters *)
Definition first_line (f line rest : text) : Prop :=
  f = (line ++ rest)%list /\ line <> [] /\ length line <= 1024 /\
  (forall i, S i < length line -> nth_error line i <> Some NL) /\
  (rest = [] \/ length line = 1024 \/ nth_error line (length line - 1) = Some NL).

(** decimal numbers *)
Definition digit (c : ascii) : Prop := 48 <= nat_of_ascii c <= 57.
Definition value (ds : text) : nat := fold_left (fun a d => 10 * a + (nat_of_ascii d - 48)) ds 0.
Inductive literal : text -> Z -> Prop :=
| Lit_plain ds : ds <> [] -> Forall digit ds -> literal ds (Z.of_nat (value ds))
| Lit_minus ds : ds <> [] -> Forall digit ds -> literal ("-"%char :: ds) (- Z.of_nat (value ds))
| Lit_plus ds : ds <> [] -> Forall digit ds -> literal ("+"%char :: ds) (Z.of_nat (value ds)).

(** * Characters *)
Lemma is_space_white c : is_space c = true <-> white c.
Proof. unfold is_space, white. cbn [In]. lia. Qed.
Lemma is_space_not c : is_space c = false <-> ~ white c.
Proof. unfold is_space, white. cbn [In]. lia. Qed.
Lemma is_digit_digit c : is_digit c = true <-> digit c.
Proof. unfold is_digit, digit. lia. Qed.
Lemma is_digit_not c : is_digit c = false <-> ~ digit c.
Proof. unfold is_digit, digit. lia. Qed.
Lemma digit_not_white c : digit c -> ~ white c.
Proof. unfold digit, white. cbn [In]. lia. Qed.
Lemma white_SP : white SP. Proof. unfold white; cbn; tauto. Qed.
Lemma white_NL : white NL. Proof. unfold white; cbn; tauto. Qed.

Lemma text_eqb_eq a b : text_eqb a b = true <-> a = b.
Proof. unfold text_eqb. destruct (list_eq_dec ascii_dec a b); intuition congruence. Qed.
Lemma text_eqb_refl a : text_eqb a a = true.
Proof. now apply text_eqb_eq. Qed.

(** * Lines *)
Lemma get_chars_app : forall k f l r, get_chars k f = (l, r) -> f = (l ++ r)%list.
Proof.
  induction k as [|k IH]; intros f l r; cbn [get_chars].
  - intros [= <- <-]. reflexivity.
  - destruct f as [|c f]; [intros [= <- <-]; reflexivity|].
    destruct (ascii_dec c NL); [intros [= <- <-]; reflexivity|].
    destruct (get_chars k f) as [l' r'] eqn:E. intros [= <- <-]. cbn. f_equal. now apply IH.
Qed.

Lemma get_chars_spec : forall k line rest, line <> [] -> length line <= k ->
  (forall i, S i < length line -> nth_error line i <> Some NL) ->
  (rest = [] \/ length line = k \/ nth_error line (length line - 1) = Some NL) ->
  get_chars k (line ++ rest)%list = (line, rest).
Proof.
  induction k as [|k IH]; intros line rest Hne Hl Hn He.
  - destruct line; [easy|cbn in Hl; lia].
  - destruct line as [|c line]; [easy|]. cbn [app get_chars].
    destruct line as [|c' line].
    + cbn [app]. destruct (ascii_dec c NL) as [e|e]; [reflexivity|].
      destruct He as [->|[He|He]].
      * destruct k; reflexivity.
      * cbn in He. assert (k = 0) by lia. subst. reflexivity.
      * cbn in He. congruence.
    + destruct (ascii_dec c NL) as [e|e].
      * exfalso. apply (Hn 0); [cbn; lia|]. cbn. congruence.
      * rewrite IH; [reflexivity|easy| |..].
        -- cbn in Hl |- *. lia.
        -- intros i Hi. apply (Hn (S i)). cbn in Hi |- *. lia.
        -- destruct He as [He|[He|He]]; [tauto| |].
           ++ right; left. cbn in He |- *. lia.
           ++ right; right. cbn [length] in *. replace (S (S (length line)) - 1) with (S (S (length line) - 1)) in He by lia. exact He.
Qed.

Lemma fgets_spec f line rest : first_line f line rest -> fgets MM_MAX_LINE_LENGTH f = Some (line, rest).
Proof.
  intros (-> & Hne & Hl & Hn & He). unfold fgets.
  rewrite (get_chars_spec (MM_MAX_LINE_LENGTH - 1) line rest) by auto.
  now destruct line.
Qed.

Lemma nl_line_first l rest : ~ In NL l -> length l <= 1023 -> first_line (l ++ [NL] ++ rest)%list (l ++ [NL])%list rest.
Proof.
  intros Hn Hl. unfold first_line. rewrite app_length. cbn [length]. splits.
  - now rewrite <- app_assoc.
  - now destruct l.
  - lia.
  - intros i Hi E. rewrite nth_error_app1 in E by lia. apply Hn. eapply nth_error_In; eauto.
  - right; right. rewrite nth_error_app2 by lia. replace (length l + 1 - 1 - length l) with 0 by lia. reflexivity.
Qed.

Lemma first_line_exists f : f <> [] -> exists line rest, first_line f line rest.
Proof.
  intros Hf. destruct (get_chars 1024 f) as [l r] eqn:E.
  exists l, r.
  assert (G : forall k f l r, f <> [] -> 0 < k -> get_chars k f = (l, r) ->
     l <> [] /\ length l <= k /\ (forall i, S i < length l -> nth_error l i <> Some NL) /\
     (r = [] \/ length l = k \/ nth_error l (length l - 1) = Some NL)).
  { clear. induction k as [|k IH]; intros f l r Hf Hk E; [lia|]. cbn [get_chars] in E.
    destruct f as [|c f]; [easy|]. destruct (ascii_dec c NL) as [e|e].
    - injection E as <- <-. subst c. splits; [easy|cbn; lia|cbn; intros; lia|cbn; auto].
    - destruct (get_chars k f) as [l' r'] eqn:E'. injection E as <- <-.
      destruct k as [|k].
      { cbn in E'. injection E' as <- <-. splits; [easy|cbn; lia|cbn; intros; lia|cbn; auto]. }
      destruct f as [|c' f].
      { cbn in E'. injection E' as <- <-. splits; [easy|cbn; lia|cbn; intros; lia|cbn; auto]. }
      destruct (IH (c' :: f) l' r' ltac:(easy) ltac:(lia) E') as (A & B & C & D). splits.
      + easy.
      + cbn; lia.
      + intros [|i] Hi; cbn; [congruence|]. apply C. cbn in Hi. lia.
      + destruct D as [D|[D|D]]; [auto|right; left; cbn; lia|]. right; right. cbn [length].
        destruct l' as [|d l']; [easy|]. cbn [length] in *. replace (S (S (length l')) - 1) with (S (S (length l') - 1)) by lia. exact D. }
  destruct (G 1024 f l r Hf ltac:(lia) E) as (A & B & C & D). unfold first_line. splits; auto.
  exact (get_chars_app _ _ _ _ E).
Qed.

(** * Words *)
Lemma skip_ws_blank b r : blank b -> skip_ws (b ++ r)%list = skip_ws r.
Proof.
  induction b as [|c b IH]; intros H; [reflexivity|]. cbn [app skip_ws].
  rewrite (proj2 (is_space_white c)); [|apply H; now left]. apply IH. intros x Hx. apply H. now right.
Qed.
Lemma skip_ws_all b : blank b -> skip_ws b = [].
Proof. intros H. rewrite <- (app_nil_r b) at 1. now rewrite skip_ws_blank. Qed.
Lemma skip_ws_stop c r : ~ white c -> skip_ws (c :: r) = c :: r.
Proof. intros H. cbn. now rewrite (proj2 (is_space_not c)). Qed.
Lemma take_word_spec w r : (forall c, In c w -> ~ white c) -> ends r -> take_word (w ++ r)%list = (w, r).
Proof.
  induction w as [|c w IH]; intros Hw Hr.
  - cbn [app]. destruct r as [|c r]; [reflexivity|]. cbn. now rewrite (proj2 (is_space_white c)).
  - cbn [app take_word]. rewrite (proj2 (is_space_not c)); [|apply Hw; now left].
    rewrite IH; [reflexivity| |exact Hr]. intros x Hx. apply Hw. now right.
Qed.

Lemma words_exist : forall s, exists ws, words_of s ws.
Proof.
  assert (G : forall n s, length s <= n -> exists ws, words_of s ws).
  { induction n as [|n IH]; intros s Hs.
    - destruct s; [|cbn in Hs; lia]. exists []. constructor. intros c [].
    - assert (A : forall s, exists b r, s = (b ++ r)%list /\ blank b /\ match r with [] => True | c :: _ => ~ white c end).
      { clear. induction s as [|c s (b & r & -> & Hb & Hr)].
        - exists [], []. splits; [reflexivity|intros c []|exact Logic.I].
        - destruct (is_space c) eqn:E.
          + exists (c :: b), r. splits; [reflexivity|intros x [<-|Hx]; [now apply is_space_white|auto]|auto].
          + exists [], (c :: b ++ r)%list. splits; [reflexivity|intros x []|now apply is_space_not]. }
      assert (B : forall s, exists w r, s = (w ++ r)%list /\ (forall c, In c w -> ~ white c) /\ ends r).
      { clear. induction s as [|c s (b & r & -> & Hb & Hr)].
        - exists [], []. splits; cbn; auto.
        - destruct (is_space c) eqn:E.
          + exists [], (c :: b ++ r)%list. splits; [reflexivity|intros x []|now apply is_space_white].
          + exists (c :: b), r. splits; [reflexivity|intros x [<-|Hx]; [now apply is_space_not|auto]|auto]. }
      destruct (A s) as (b & r & -> & Hb & Hr). destruct r as [|c r].
      { exists []. rewrite app_nil_r. now constructor. }
      destruct (B r) as (w & q & -> & Hw & Hq).
      destruct (IH q) as (ws & Hws). { rewrite app_length in Hs. cbn in Hs. rewrite app_length in Hs. lia. }
      exists ((c :: w) :: ws). change (c :: w ++ q)%list with ((c :: w) ++ q)%list. constructor; auto; [easy|].
      intros x [<-|Hx]; auto. }
  intros s. apply (G (length s) s). lia.
Qed.

Lemma scan_words_ok : forall k size s ws, words_of s ws -> (forall w, In w (firstn k ws) -> length w < size) ->
  scan_words k size s = Ok (firstn k ws).
Proof.
  induction k as [|k IH]; intros size s ws Hw Hl; [reflexivity|]. cbn [scan_words].
  inversion Hw as [b Hb|b w r ws' Hb Hne Hw' He Hr]; subst.
  - now rewrite skip_ws_all.
  - rewrite skip_ws_blank by auto. destruct w as [|c w]; [easy|]. cbn [app].
    rewrite skip_ws_stop by (apply Hw'; now left).
    change (c :: w ++ r)%list with ((c :: w) ++ r)%list. rewrite take_word_spec by auto.
    cbn [firstn] in *. assert (length (c :: w) < size) as Hc by (apply Hl; now left).
    apply Nat.ltb_lt in Hc. rewrite Hc. rewrite (IH size r ws') by (auto; intros; apply Hl; now right). reflexivity.
Qed.
Lemma scan_words_long : forall k size s ws i w, words_of s ws -> i < k -> nth_error ws i = Some w -> size <= length w ->
  scan_words k size s = Err OOB.
Proof.
  induction k as [|k IH]; intros size s ws i w Hw Hi Hn Hl; [lia|]. cbn [scan_words].
  inversion Hw as [b Hb|b w' r ws' Hb Hne Hw' He Hr]; subst.
  - destruct i; discriminate.
  - rewrite skip_ws_blank by auto. destruct w' as [|c w']; [easy|]. cbn [app].
    rewrite skip_ws_stop by (apply Hw'; now left).
    change (c :: w' ++ r)%list with ((c :: w') ++ r)%list. rewrite take_word_spec by auto.
    destruct (length (c :: w') <? size) eqn:E; [|reflexivity].
    destruct i as [|i].
    + cbn in Hn. injection Hn as <-. apply Nat.ltb_lt in E. lia.
    + cbn in Hn. rewrite (IH size r ws' i w) by (auto; lia). reflexivity.
Qed.

(** * Numbers *)
Lemma scan_digits_spec : forall ds acc r, Forall digit ds -> match r with [] => True | c :: _ => ~ digit c end ->
  scan_digits acc (ds ++ r)%list = (fold_left (fun a d => 10 * a + (nat_of_ascii d - 48)) ds acc, r).
Proof.
  induction ds as [|d ds IH]; intros acc r Hd Hr.
  - cbn [app fold_left]. destruct r as [|c r]; [reflexivity|]. cbn. now rewrite (proj2 (is_digit_not c)).
  - inversion Hd; subst. cbn [app scan_digits fold_left]. rewrite (proj2 (is_digit_digit d)) by auto.
    rewrite IH by auto. unfold digit_val. do 2 f_equal. lia.
Qed.
Lemma ends_not_digit r : ends r -> match r with [] => True | c :: _ => ~ digit c end.
Proof. destruct r; cbn; auto. intros H D. now apply digit_not_white in D. Qed.
Lemma not_white_minus : ~ white "-"%char. Proof. unfold white; cbn; lia. Qed.
Lemma not_white_plus : ~ white "+"%char. Proof. unfold white; cbn; lia. Qed.

Lemma scan_int_literal b w z r : blank b -> literal w z -> ends r -> scan_int (b ++ w ++ r)%list = Got z r.
Proof.
  intros Hb Hw Hr. unfold scan_int. rewrite skip_ws_blank by auto. apply ends_not_digit in Hr.
  destruct Hw as [ds Hne Hd|ds Hne Hd|ds Hne Hd].
  - destruct ds as [|d ds]; [easy|]. inversion Hd; subst. cbn [app]. rewrite skip_ws_stop by (now apply digit_not_white).
    rewrite (proj2 (is_digit_digit d)) by auto. change (d :: ds ++ r)%list with ((d :: ds) ++ r)%list.
    now rewrite scan_digits_spec.
  - destruct ds as [|d ds]; [easy|]. inversion Hd; subst. cbn [app]. rewrite skip_ws_stop by apply not_white_minus.
    change (is_digit "-") with false. cbv iota. destruct (ascii_dec "-" "-") as [_|n]; [|easy].
    rewrite (proj2 (is_digit_digit d)) by auto. change (d :: ds ++ r)%list with ((d :: ds) ++ r)%list.
    now rewrite scan_digits_spec.
  - destruct ds as [|d ds]; [easy|]. inversion Hd; subst. cbn [app]. rewrite skip_ws_stop by apply not_white_plus.
    change (is_digit "+") with false. cbv iota. destruct (ascii_dec "+" "-") as [n|_]; [discriminate n|].
    destruct (ascii_dec "+" "+") as [_|n]; [|easy].
    rewrite (proj2 (is_digit_digit d)) by auto. change (d :: ds ++ r)%list with ((d :: ds) ++ r)%list.
    now rewrite scan_digits_spec.
Qed.

Lemma digits_of_digit d : Forall digit (digits_of d).
Proof. induction d; cbn [digits_of]; constructor; auto; unfold digit; cbn; lia. Qed.
Lemma digits_value : forall d acc, fold_left (fun a d => 10 * a + (nat_of_ascii d - 48)) (digits_of d) acc = Nat.of_uint_acc d acc.
Proof.
  induction d; intros acc; cbn [digits_of fold_left]; [reflexivity|..]; rewrite IHd; cbn [Nat.of_uint_acc];
    f_equal; rewrite Nat.tail_mul_spec; cbn; lia.
Qed.
Lemma to_uint_nonnil n : Nat.to_uint n <> Nil.
Proof.
  intros E. pose proof (Unsigned.to_uint_inj 0 n) as H. 
  assert (n = 0) by (rewrite <- (Unsigned.of_to n), E; reflexivity). subst n. discriminate E.
Qed.
Lemma show_nat_digits n : show_nat n <> [] /\ Forall digit (show_nat n) /\ value (show_nat n) = n.
Proof.
  unfold show_nat. splits.
  - pose proof (to_uint_nonnil n). destruct (Nat.to_uint n); cbn; easy.
  - apply digits_of_digit.
  - unfold value. rewrite digits_value. exact (Unsigned.of_to n).
Qed.
Lemma show_int_literal z : literal (show_int z) z.
Proof.
  unfold show_int. destruct (show_nat_digits (Z.abs_nat z)) as (A & B & C).
  destruct (z <? 0)%Z eqn:E.
  - replace z with (- Z.of_nat (value (show_nat (Z.abs_nat z))))%Z at 2 by lia. now constructor.
  - replace z with (Z.of_nat (value (show_nat (Z.abs_nat z)))) at 2 by lia. now constructor.
Qed.
Lemma literal_nonempty w z : literal w z -> w <> [].
Proof. intros H; destruct H; easy. Qed.
Lemma literal_not_white w z c : literal w z -> In c w -> ~ white c.
Proof.
  intros H. destruct H as [ds Hne Hd|ds Hne Hd|ds Hne Hd]; rewrite Forall_forall in Hd.
  - intros Hc. now apply digit_not_white, Hd.
  - intros [<-|Hc]; [apply not_white_minus|now apply digit_not_white, Hd].
  - intros [<-|Hc]; [apply not_white_plus|now apply digit_not_white, Hd].
Qed.
Lemma literal_no_NL w z : literal w z -> ~ In NL w.
Proof. intros H Hc. exact (literal_not_white w z NL H Hc white_NL). Qed.

Lemma scan_ints_words : forall k s ws zs, words_of s ws -> Forall2 literal (firstn k ws) zs -> length zs = k ->
  exists r, scan_ints k s = (zs, false, r).
Proof.
  induction k as [|k IH]; intros s ws zs Hw Hl Hk.
  - destruct zs; [|cbn in Hk; lia]. cbn. eauto.
  - inversion Hw as [b Hb|b w r ws' Hb Hne Hw' He Hr]; subst.
    + cbn in Hl. inversion Hl; subst. cbn in Hk. lia.
    + cbn [firstn] in Hl. inversion Hl as [|? z ? zs' Hz Hzs]; subst. cbn [scan_ints].
      rewrite (scan_int_literal b w z r) by auto.
      destruct (IH r ws' zs' Hr Hzs) as (q & ->). { cbn in Hk; lia. }
      eauto.
Qed.

Lemma scan_ints_length : forall k s zs e r, scan_ints k s = (zs, e, r) -> length zs <= k.
Proof.
  induction k as [|k IH]; intros s zs e r; cbn [scan_ints].
  - intros [= <- _ _]. cbn; lia.
  - destruct (scan_int s) as [z q|q|].
    + destruct (scan_ints k q) as [[zs' e'] r'] eqn:E. intros [= <- _ _]. apply IH in E. cbn; lia.
    + intros [= <- _ _]. cbn; lia.
    + intros [= <- _ _]. cbn; lia.
Qed.

(** * Comments *)
Definition comment (c : text) : Prop := exists l, c = ("%"%char :: l ++ [NL])%list /\ ~ In NL l /\ length l <= 1022.

Lemma comment_first c rest : comment c -> first_line (c ++ rest)%list c rest.
Proof.
  intros (l & -> & Hn & Hl). pose proof (nl_line_first ("%"%char :: l) rest) as H.
  cbn [app] in H |- *. rewrite <- app_assoc. cbn [app] in *. apply H.
  - intros [E|E]; [discriminate E|tauto].
  - cbn. lia.
Qed.

Lemma skip_comments_ok : forall cs fuel f line rest,
  Forall comment cs -> first_line f line rest -> nth_error line 0 <> Some "%"%char -> length (concat cs ++ f)%list < fuel ->
  skip_comments fuel (concat cs ++ f)%list = Ok (Some (line, rest)).
Proof.
  induction cs as [|c cs IH]; intros fuel f line rest Hc Hf Hp Hfu.
  - destruct fuel as [|fuel]; [cbn in Hfu; lia|]. cbn [concat app skip_comments]. rewrite (fgets_spec f line rest Hf).
    destruct Hf as (_ & Hne & _). destruct line as [|a line]; [easy|]. unfold rd. cbn [app nth_error bind].
    unfold is. destruct (ascii_dec a "%") as [->|]; [exfalso; apply Hp; reflexivity|reflexivity].
  - inversion Hc as [|? ? Hc1 Hc2]; subst. destruct fuel as [|fuel]; [cbn in Hfu; lia|]. cbn [concat skip_comments].
    rewrite <- app_assoc. rewrite (fgets_spec _ c (concat cs ++ f)%list (comment_first c _ Hc1)).
    pose proof Hc1 as (l & -> & _ & _). unfold rd. cbn [app nth_error bind]. cbn [is]. unfold is.
    destruct (ascii_dec "%" "%") as [_|n]; [|easy]. apply IH; auto.
    cbn [concat] in Hfu. rewrite !app_length in *. cbn [length] in Hfu. lia.
Qed.
Lemma skip_comments_none : forall cs fuel, Forall comment cs -> length (concat cs) < fuel -> skip_comments fuel (concat cs) = Ok None.
Proof.
  induction cs as [|c cs IH]; intros fuel Hc Hfu.
  - destruct fuel; [cbn in Hfu; lia|]. reflexivity.
  - inversion Hc as [|? ? Hc1 Hc2]; subst. destruct fuel as [|fuel]; [cbn in Hfu; lia|]. cbn [concat skip_comments].
    rewrite (fgets_spec _ c (concat cs) (comment_first c _ Hc1)).
    pose proof Hc1 as (l & -> & _ & _). unfold rd. cbn [app nth_error bind]. unfold is.
    destruct (ascii_dec "%" "%") as [_|n]; [|easy]. apply IH; auto.
    cbn [concat] in Hfu. rewrite !app_length in *. cbn [length] in Hfu. lia.
Qed.
