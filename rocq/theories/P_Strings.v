(** Properties of the string helpers of the readers (C150, C151). *)
From Coq Require Import ZifyBool ZifyNat String Ascii.
From Verif Require Import Base M_Dense.
Local Open Scope list_scope.

Notation chars := list_ascii_of_string.

(** tab, line feed, vertical tab, form feed, carriage return, space *)
Definition white (c : ascii) : Prop := In (nat_of_ascii c) [9; 10; 11; 12; 13; 32].
Definition no_white_ends (l : list ascii) : Prop := (forall c r, l = c :: r -> ~ white c) /\ (forall c r, l = r ++ [c] -> ~ white c).

Lemma isspace_iff c : isspace c = true <-> white c.
Proof. unfold isspace, white. cbn [In]. cbv zeta. set (k := nat_of_ascii c). rewrite Bool.orb_true_iff, Bool.andb_true_iff, !Nat.leb_le, Nat.eqb_eq. lia. Qed.

Lemma chars_rev s acc : chars (rev_string s acc) = rev (chars s) ++ chars acc.
Proof. revert acc. induction s as [|c s IH]; intros acc; cbn [rev_string list_ascii_of_string rev app]; auto. rewrite IH. cbn [list_ascii_of_string]. now rewrite <- app_assoc. Qed.

Lemma ltrim_spec s : exists a, chars s = a ++ chars (ltrim s) /\ Forall white a /\ forall c r, chars (ltrim s) = c :: r -> ~ white c.
Proof.
  induction s as [|c s IH]; cbn [ltrim].
  - exists []. splits; auto. intros c r H. discriminate.
  - destruct (isspace c) eqn:E.
    + destruct IH as (a & A1 & A2 & A3). exists (c :: a). splits; auto; [cbn [list_ascii_of_string app]; now rewrite A1|]. constructor; auto. now apply isspace_iff.
    + exists []. splits; auto. intros c' r H. cbn [list_ascii_of_string] in H. inversion H; subst. intros W. apply isspace_iff in W. congruence.
Qed.

Lemma rtrim_spec s : exists b, chars s = chars (rtrim s) ++ b /\ Forall white b /\ forall c r, chars (rtrim s) = r ++ [c] -> ~ white c.
Proof.
  unfold rtrim. destruct (ltrim_spec (rev_string s EmptyString)) as (a & A1 & A2 & A3). rewrite chars_rev in A1. cbn [list_ascii_of_string] in A1. rewrite app_nil_r in A1.
  exists (rev a). rewrite chars_rev. cbn [list_ascii_of_string]. rewrite app_nil_r, <- rev_app_distr, <- A1, rev_involutive. splits; auto.
  - apply Forall_rev. auto.
  - intros c r H. apply (f_equal (@rev _)) in H. rewrite rev_involutive, rev_app_distr in H. cbn in H. eauto.
Qed.

(** trim removes white space at both ends and nothing else *)
Theorem C150_trim : forall s, exists a b, chars s = a ++ chars (trim s) ++ b /\ Forall white a /\ Forall white b /\ no_white_ends (chars (trim s)).
Proof.
  intros s. unfold trim. destruct (ltrim_spec s) as (a & A1 & A2 & A3). destruct (rtrim_spec (ltrim s)) as (b & B1 & B2 & B3).
  exists a, b. splits; auto; [congruence|]. split; auto. intros c r H. apply (A3 c (r ++ b)). rewrite B1, H. reflexivity.
Qed.
Print Assumptions C150_trim.

Lemma white_dec c : {white c} + {~ white c}.
Proof. destruct (isspace c) eqn:E; [left; now apply isspace_iff|right; intros W; apply isspace_iff in W; congruence]. Qed.

Lemma strip_unique (a a' t t' : list ascii) : Forall white a -> Forall white a' -> (forall c r, t = c :: r -> ~ white c) -> (forall c r, t' = c :: r -> ~ white c) ->
  a ++ t = a' ++ t' -> a = a' /\ t = t'.
Proof.
  revert a'. induction a as [|c a IH]; intros a' H1 H2 H3 H4 E.
  - destruct a' as [|c' a']; auto. cbn in E. exfalso. inversion_clear H2 as [|? ? W1 W2]. exact (H3 _ _ E W1).
  - inversion_clear H1 as [|? ? W1 W2]. destruct a' as [|c' a']; cbn in E.
    + exfalso. exact (H4 _ _ (eq_sym E) W1).
    + inversion E as [[E1 E2]]. inversion_clear H2 as [|? ? W3 W4]. destruct (IH a' W2 W4 H3 H4 E2) as (-> & ->); auto.
Qed.

(** there is no other way to do so: any decomposition gives the same string.  So trim is the identity on trimmed strings. *)
Theorem C150_trim_unique : forall s t a b, chars s = a ++ chars t ++ b -> Forall white a -> Forall white b -> no_white_ends (chars t) -> t = trim s.
Proof.
  intros s t a b E HA HB (N1 & N2). destruct (C150_trim s) as (a' & b' & E' & HA' & HB' & (N1' & N2')).
  assert (EC : chars t = chars (trim s)).
  { destruct (chars t) as [|c r] eqn:Et.
    - destruct (chars (trim s)) as [|c' r'] eqn:Et'; auto. exfalso. rewrite E in E'. cbn in E'. assert (F : Forall white (a ++ b)) by (apply Forall_app; auto).
      rewrite E' in F. apply Forall_app in F. destruct F as (_ & F). cbn in F. inversion F; subst. eapply N1'; eauto.
    - destruct (chars (trim s)) as [|c' r'] eqn:Et'.
      + exfalso. rewrite E in E'. cbn in E'. assert (F : Forall white (a' ++ b')) by (apply Forall_app; auto).
        rewrite <- E' in F. apply Forall_app in F. destruct F as (_ & F). cbn in F. inversion F; subst. eapply N1; eauto.
      + rewrite E in E'. destruct (strip_unique a a' ((c :: r) ++ b) ((c' :: r') ++ b') HA HA') as (_ & E2); auto.
        { intros x y H. cbn in H. inversion H; subst. eapply N1; eauto. }
        { intros x y H. cbn in H. inversion H; subst. eapply N1'; eauto. }
        apply (f_equal (@rev _)) in E2. rewrite !rev_app_distr in E2.
        destruct (strip_unique (rev b) (rev b') (rev (c :: r)) (rev (c' :: r'))) as (_ & E3); auto using Forall_rev.
        { intros x y H. apply (f_equal (@rev _)) in H. rewrite rev_involutive in H. cbn [rev] in H. eapply N2; eauto. }
        { intros x y H. apply (f_equal (@rev _)) in H. rewrite rev_involutive in H. cbn [rev] in H. eapply N2'; eauto. }
        apply (f_equal (@rev _)) in E3. now rewrite !rev_involutive in E3. }
  rewrite <- (string_of_list_ascii_of_string t), <- (string_of_list_ascii_of_string (trim s)). congruence.
Qed.
Print Assumptions C150_trim_unique.

Theorem C150_trim_idempotent : forall s, trim (trim s) = trim s.
Proof.
  intros s. destruct (C150_trim s) as (a & b & _ & _ & _ & N). symmetry. apply (C150_trim_unique (trim s) (trim s) [] []); auto. now rewrite app_nil_r.
Qed.
Print Assumptions C150_trim_idempotent.

Example C150_case : trim (String.append "  two words " newline) = "two words"%string /\ trim "   " = ""%string.
Proof. vm_compute. auto. Qed.

(** * C151 *)

(** the lines of a block: indented lines and lines that start with a dash *)
Definition indented (indent l : string) : Prop := exists r, l = String.append indent r.
Definition dash (l : string) : Prop := exists r, l = String "-" r.
Definition of_block (indent l : string) : Prop := indented indent l \/ dash l.

(** [taken] are the leading lines of the block *)
Definition block_prefix (indent : string) (lines taken rest : list string) : Prop :=
  lines = taken ++ rest /\ Forall (of_block indent) taken /\ match rest with [] => True | l :: _ => ~ of_block indent l end.

(** [t] is the text of the lines: the indented ones, each without leading white space and with a newline *)
Inductive block_text (indent : string) : list string -> string -> Prop :=
| bt_nil : block_text indent [] EmptyString
| bt_indented l ls t : indented indent l -> block_text indent ls t -> block_text indent (l :: ls) (String.append (ltrim l) (String.append newline t))
| bt_dash l ls t : ~ indented indent l -> block_text indent ls t -> block_text indent (l :: ls) t.

Lemma append_assoc a b c : String.append (String.append a b) c = String.append a (String.append b c).
Proof. induction a as [|x a IH]; cbn [String.append]; auto. now rewrite IH. Qed.

Lemma append_nil a : String.append a EmptyString = a.
Proof. induction a as [|x a IH]; cbn [String.append]; auto. now rewrite IH. Qed.

Lemma starts_with_iff t s : starts_with t s = true <-> indented t s.
Proof.
  unfold starts_with, indented. rewrite String.eqb_eq. revert s. induction t as [|c t IH]; intros s; cbn [String.length String.append].
  - split; [intros _; eauto|intros _; destruct s; reflexivity].
  - destruct s as [|x s]; cbn [substring]; [split; [discriminate|intros (r & E); discriminate]|]. split.
    + intros E. inversion E as [[E1 E2]]. rewrite E2. apply IH in E2. destruct E2 as (r & ->). eauto.
    + intros (r & E). inversion E; subst. f_equal. apply IH. eauto.
Qed.

(** what the loop does with a line that is not of the block *)
Lemma not_dash_match {A} l (x y : A) : ~ dash l -> match l with String "-" _ => x | _ => y end = y.
Proof.
  intros N. destruct l as [|[b0 b1 b2 b3 b4 b5 b6 b7] l]; auto.
  destruct b0, b1, b2, b3, b4, b5, b6, b7; auto. exfalso. apply N. exists l. reflexivity.
Qed.

Definition end_state (nl : bool) (lines rest : list string) : stream :=
  match rest with
  | [] => match lines with [] => ([], false, true) | _ => if nl then ([], false, true) else ([], true, false) end
  | _ => (rest, false, false)
  end.

Lemma read_string_eof fuel nl indent context line ls fail : 0 < fuel ->
  while_ fuel
    (fun '(line, context, st, brk) => Ok (negb brk && negb (eofbit st)))
    (fun '(line, context, st, brk) =>
      let '(pos, _, _) := st in
      let '(line, st) := getline_s nl line st in
      if negb (starts_with indent line) then
        match line with
        | String "-" _ => Ok (line, context, st, false)
        | _ => Ok (line, context, seekg pos st, true)
        end
      else let line := String.append (ltrim line) newline in Ok (line, String.append context line, st, false)) (line, context, (ls, true, fail), false) =
  Ok (line, context, (ls, true, fail), false).
Proof. intros H. destruct fuel; [lia|]. reflexivity. Qed.

Lemma read_string_loop nl indent : indent <> EmptyString -> forall lines taken rest t, block_prefix indent lines taken rest -> block_text indent taken t ->
  forall fuel context line, length lines + 2 <= fuel ->
  exists line' brk, while_ fuel
    (fun '(line, context, st, brk) => Ok (negb brk && negb (eofbit st)))
    (fun '(line, context, st, brk) =>
      let '(pos, _, _) := st in
      let '(line, st) := getline_s nl line st in
      if negb (starts_with indent line) then
        match line with
        | String "-" _ => Ok (line, context, st, false)
        | _ => Ok (line, context, seekg pos st, true)
        end
      else let line := String.append (ltrim line) newline in Ok (line, String.append context line, st, false)) (line, context, (lines, false, false), false) =
  Ok (line', String.append context t, end_state nl lines rest, brk).
Proof.
  intros NE. induction lines as [|l lines IH]; intros taken rest t (P1 & P2 & P3) BT fuel context line HF.
  - destruct taken; [|discriminate]. destruct rest; [|discriminate]. inversion BT; subst. rewrite append_nil.
    destruct fuel as [|[|fuel]]; try (cbn in HF; lia). exists EmptyString, true. cbn [while_ bind negb andb eofbit getline_s orb].
    assert (E : starts_with indent EmptyString = false). { destruct (starts_with indent EmptyString) eqn:E; auto. apply starts_with_iff in E. destruct E as (r & E). destruct indent; [congruence|discriminate]. }
    rewrite E. cbn [negb bind while_ andb]. reflexivity.
  - destruct fuel as [|fuel]; [cbn in HF; lia|]. cbn [length] in HF.
    destruct taken as [|l0 taken].
    + destruct rest as [|l' rest]; [discriminate|]. cbn in P1. inversion P1; subst l' lines. inversion BT; subst. rewrite append_nil.
      exists l, true. cbn [while_ bind negb andb eofbit].
      assert (N1 : starts_with indent l = false). { destruct (starts_with indent l) eqn:E; auto. exfalso. apply P3. left. now apply starts_with_iff. }
      assert (N2 : ~ dash l) by (intros D; apply P3; right; auto).
      destruct fuel as [|fuel]; [lia|].
      assert (G : getline_s nl line (l :: rest, false, false) = (l, (rest, match rest with [] => negb nl | _ => false end, false))) by (destruct rest; reflexivity).
      rewrite G, N1. cbn [negb]. rewrite (not_dash_match l) by auto. cbn [bind seekg while_ negb andb]. reflexivity.
    + cbn in P1. inversion P1; subst l0 lines. inversion_clear P2 as [|? ? P2a P2b].
      assert (STEP : forall tt, block_text indent taken tt -> forall line' context', exists line'' brk, while_ fuel
          (fun '(line, context, st, brk) => Ok (negb brk && negb (eofbit st)))
          (fun '(line, context, st, brk) =>
            let '(pos, _, _) := st in
            let '(line, st) := getline_s nl line st in
            if negb (starts_with indent line) then
              match line with
              | String "-" _ => Ok (line, context, st, false)
              | _ => Ok (line, context, seekg pos st, true)
              end
            else let line := String.append (ltrim line) newline in Ok (line, String.append context line, st, false))
          (line', context', (taken ++ rest, match taken ++ rest with [] => negb nl | _ => false end, false), false) =
          Ok (line'', String.append context' tt, end_state nl (l :: taken ++ rest) rest, brk)).
      { intros tt BT' line' context'. destruct (taken ++ rest) as [|l1 ls] eqn:EL.
        - destruct taken; [|discriminate]. destruct rest; [|discriminate]. inversion BT'; subst. rewrite append_nil. cbn [end_state].
          destruct nl; cbn [negb].
          + destruct (IH [] [] EmptyString) with (fuel := fuel) (context := context') (line := line') as (a & b & E); [splits; auto; unfold block_prefix; splits; auto|constructor|cbn [length]; lia|].
            exists a, b. rewrite append_nil in E. exact E.
          + exists line', false. apply read_string_eof. lia.
        - destruct (IH taken rest tt) with (fuel := fuel) (context := context') (line := line') as (a & b & E); [unfold block_prefix; splits; auto|auto|lia|].
          exists a, b. rewrite E. destruct rest; reflexivity. }
      assert (G : getline_s nl line (l :: taken ++ rest, false, false) = (l, (taken ++ rest, match taken ++ rest with [] => negb nl | _ => false end, false))) by (destruct (taken ++ rest); reflexivity).
      cbn [while_ bind negb andb eofbit]. rewrite G. inversion BT; subst.
      * assert (E : starts_with indent l = true) by (now apply starts_with_iff). rewrite E. cbn [negb bind].
        destruct (STEP t0 H3 (String.append (ltrim l) newline) (String.append context (String.append (ltrim l) newline))) as (a & b & EE).
        exists a, b. etransitivity; [exact EE|]. now rewrite !append_assoc.
      * assert (E : starts_with indent l = false). { destruct (starts_with indent l) eqn:E; auto. exfalso. apply starts_with_iff in E. auto. }
        rewrite E. cbn [negb bind]. destruct P2a as [C|(r & ->)]; [contradiction|]. cbn [bind]. apply STEP. auto.
Qed.

(** The text of the leading lines of a block is appended and the stream stands at the first line that is not of the block *)
Theorem C151_read_string : forall nl indent context lines taken rest t fuel, indent <> EmptyString -> block_prefix indent lines taken rest -> block_text indent taken t ->
  length lines + 2 <= fuel ->
  exists st, read_string fuel nl indent context (lines, false, false) = Ok (String.append context t, st) /\
    (rest <> [] -> st = (rest, false, false)) /\ (rest = [] -> exists eof fail, st = ([], eof, fail) /\ (eof = true \/ fail = true)).
Proof.
  intros nl indent context lines taken rest t fuel NE BP BT HF. destruct (read_string_loop nl indent NE lines taken rest t BP BT fuel context EmptyString HF) as (l & b & E).
  exists (end_state nl lines rest). split; [unfold read_string; match goal with |- bind ?r _ = _ => assert (E2 : r = Ok (l, String.append context t, end_state nl lines rest, b)) by exact E; rewrite E2 end; reflexivity|]. split.
  - intros NR. destruct rest; [congruence|reflexivity].
  - intros ->. cbn [end_state]. destruct lines; eauto. destruct nl; eauto.
Qed.
Print Assumptions C151_read_string.

(** every file has such a beginning *)
Theorem C151_block_exists : forall indent lines, exists taken rest t, block_prefix indent lines taken rest /\ block_text indent taken t.
Proof.
  intros indent. induction lines as [|l lines (taken & rest & t & (P1 & P2 & P3) & BT)].
  - exists [], [], EmptyString. split; [unfold block_prefix; splits; auto|constructor].
  - destruct (starts_with indent l) eqn:E.
    + apply starts_with_iff in E. exists (l :: taken), rest, (String.append (ltrim l) (String.append newline t)). split; [|constructor; auto].
      unfold block_prefix. splits; auto; [cbn; congruence|constructor; auto; left; auto].
    + assert (NI : ~ indented indent l) by (intros C; apply starts_with_iff in C; congruence).
      assert (D : dash l \/ ~ dash l).
      { unfold dash. destruct l as [|c r]; [right; intros (? & ?); discriminate|]. destruct (Ascii.ascii_dec c "-") as [->|N]; [left; eauto|right; intros (? & C); inversion C; auto]. }
      destruct D as [D|D].
      * exists (l :: taken), rest, t. split; [|constructor 3; auto]. unfold block_prefix. splits; auto; [cbn; congruence|constructor; auto; right; auto].
      * exists [], (l :: lines), EmptyString. split; [|constructor]. unfold block_prefix. splits; auto. intros [C|C]; auto.
Qed.
Print Assumptions C151_block_exists.

Example C151_case : read_string 9 true "  " "text: " (["  one"; "- skipped"; "    two"; "other"; "  three"], false, false)%string =
  Ok (String.append "text: one" (String.append newline (String.append "two" newline)), (["other"; "  three"], false, false))%string.
Proof. vm_compute. reflexivity. Qed.
