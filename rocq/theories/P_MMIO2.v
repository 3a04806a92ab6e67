(** C159: coordinate files written and read by utils/external/mmio.cpp. *)
From Coq Require Import Ascii String.
From Coq Require Import ZifyBool ZifyNat.
From Verif Require Import Base Lib M_MMIO L_MMIO P_MMIO.
Local Open Scope nat_scope.
Import ListNotations.

(** * Specification *)

(** %lg reads what %20.16g has written, rounded to 16 digits *)
Definition dbl_ok {V} (scan_dbl : text -> scan V) (show_dbl : V -> text) (rnd : V -> V) : Prop :=
  forall v rest, ends rest -> scan_dbl (SP :: show_dbl v ++ rest)%list = Got (rnd v) rest.

(** numbers per entry *)
Definition per (t : typecode) : nat := if ascii_dec (tc2 t) "C" then 2 else if ascii_dec (tc2 t) "R" then 1 else 0.
Definition file_type (t : typecode) : Prop := known t /\ tc1 t = "C"%char /\ In (tc2 t) ["R"; "C"; "P"]%char.

(** what the reader leaves after [j] entries of [nz] *)
Definition got {A} (nz j : nat) (l : list A) : list (option A) := (map Some (firstn j l) ++ repeat None (nz - j))%list.

(** * Lemmas *)
Lemma nth_error_firstn_lt {A} (l : list A) n i : i < n -> nth_error (firstn n l) i = nth_error l i.
Proof. revert l i. induction n as [|n IH]; intros [|a l] [|i] H; try lia; cbn; auto. apply IH. lia. Qed.
Lemma firstn_plus {A} (l : list A) a b : firstn (a + b) l = (firstn a l ++ firstn b (skipn a l))%list.
Proof. revert l. induction a as [|a IH]; intros [|h l]; cbn; auto; [now rewrite firstn_nil|now rewrite IH]. Qed.

Section Crd.
Context {V : Type}.
Variable scan_dbl : text -> scan V.
Variable show_dbl : V -> text.
Variable rnd : V -> V.
Hypothesis Hdbl : dbl_ok scan_dbl show_dbl rnd.
Variables Is Js : list Z.
Variable x : list V.

Definition tailv (vs : list V) : text := concat (map (fun v => SP :: show_dbl v)%list vs).
Definition entry (d i : nat) : text :=
  (show_int (nth i Is 0%Z) ++ [SP] ++ show_int (nth i Js 0%Z) ++ tailv (firstn d (skipn (d * i) x)) ++ [NL])%list.
Definition body (d j : nat) : text := concat (map (entry d) (seq 0 j)).

Lemma body_S d j : body d (S j) = (body d j ++ entry d j)%list.
Proof. unfold body. rewrite seq_S, map_app, concat_app. cbn. now rewrite app_nil_r. Qed.

Lemma skipn_hd {A} i (l : list A) v : nth_error l i = Some v -> skipn i l = v :: skipn (S i) l.
Proof. revert l. induction i as [|i IH]; intros [|a l] H; try discriminate; cbn in *; [now injection H as ->|now apply IH]. Qed.

(** ** The writer *)
Lemma write_loop (f : nat -> text -> res text) d h : forall k,
  (forall i out, i < k -> f i out = Ok (out ++ entry d i)%list) -> for_ 0 k f h = Ok (h ++ body d k)%list.
Proof.
  intros k Hf.
  assert (W : wp (for_ 0 k f h) (fun out => out = (h ++ body d k)%list)).
  { apply (wp_for (fun i out => out = (h ++ body d i)%list)); [lia| | |auto].
    - unfold body. cbn. now rewrite app_nil_r.
    - intros i out Hi ->. rewrite Hf by lia. cbn [wp]. rewrite body_S. symmetry. apply app_assoc. }
  unfold wp in W. destruct (for_ 0 k f h); [now rewrite W|easy].
Qed.

Definition head (t : typecode) (str : text) (M N nz : Z) : text :=
  (MatrixMarketBanner ++ [SP] ++ str ++ [NL] ++ show_int M ++ [SP] ++ show_int N ++ [SP] ++ show_int nz ++ [NL])%list.

Lemma write_ok t str M N k : file_type t -> mm_typecode_to_str t = Ok (Some str) -> k <= length Is -> k <= length Js -> per t * k <= length x ->
  mm_write_mtx_crd show_dbl M N (Z.of_nat k) Is Js x t = Ok (0%Z, (head t str M N (Z.of_nat k) ++ body (per t) k)%list).
Proof.
  intros (Hk & H1 & H2) Hs HI HJ Hx. unfold mm_write_mtx_crd. rewrite Hs. cbn [bind]. cbv zeta. rewrite Nat2Z.id.
  assert (HIJ : forall i, i < k -> nth_error Is i = Some (nth i Is 0%Z) /\ nth_error Js i = Some (nth i Js 0%Z)).
  { intros i Hi. split; apply nth_error_nth'; lia. }
  unfold mm_is_pattern, mm_is_real, mm_is_complex, is. unfold per in *.
  destruct H2 as [E|[E|[E|[]]]]; rewrite <- E in *.
  - destruct (ascii_dec "R" "P"); [discriminate|]. destruct (ascii_dec "R" "R"); [|easy]. destruct (ascii_dec "R" "C"); [discriminate|].
    rewrite (write_loop _ 1); [reflexivity|]. intros i out Hi. destruct (HIJ i Hi) as [-> ->].
    destruct (nth_error x i) as [v|] eqn:Ev; [|apply nth_error_None in Ev; lia].
    unfold entry. rewrite Nat.mul_1_l. rewrite (skipn_hd i x v Ev). cbn [firstn]. unfold tailv. cbn [map concat app].
    rewrite app_nil_r. reflexivity.
  - destruct (ascii_dec "C" "P"); [discriminate|]. destruct (ascii_dec "C" "R"); [discriminate|]. destruct (ascii_dec "C" "C"); [|easy].
    rewrite (write_loop _ 2); [reflexivity|]. intros i out Hi. destruct (HIJ i Hi) as [-> ->].
    destruct (nth_error x (2 * i)) as [v|] eqn:Ev; [|apply nth_error_None in Ev; lia].
    destruct (nth_error x (2 * i + 1)) as [w|] eqn:Ew; [|apply nth_error_None in Ew; lia].
    unfold entry. rewrite (skipn_hd (2 * i) x v Ev). replace (2 * i + 1) with (S (2 * i)) in Ew by lia.
    rewrite (skipn_hd (S (2 * i)) x w Ew). cbn [firstn]. unfold tailv. cbn [map concat app]. rewrite app_nil_r, <- app_assoc. reflexivity.
  - destruct (ascii_dec "P" "P"); [|easy]. destruct (ascii_dec "P" "C"); [discriminate|]. destruct (ascii_dec "P" "R"); [discriminate|].
    rewrite (write_loop _ 0); [reflexivity|]. intros i out Hi. destruct (HIJ i Hi) as [-> ->]. reflexivity.
Qed.

(** ** The reader *)
Lemma scan_tail : forall vs r, ends r ->
  scan_fields scan_dbl (repeat FDbl (length vs)) (tailv vs ++ r)%list = (map (fun v => VDbl (rnd v)) vs, false, r).
Proof.
  induction vs as [|v vs IH]; intros r Hr; [reflexivity|]. cbn [length repeat scan_fields map]. unfold tailv. cbn [map concat app].
  rewrite <- app_assoc. rewrite Hdbl.
  - fold (tailv vs). now rewrite IH.
  - destruct vs; cbn; [exact Hr|exact white_SP].
Qed.
Lemma ends_tailv vs r : ends r -> ends (tailv vs ++ r)%list.
Proof. destruct vs; cbn; [auto|intros; exact white_SP]. Qed.

Lemma scan_entry b a c vs r : blank b -> ends r ->
  scan_fields scan_dbl (FInt :: FInt :: repeat FDbl (length vs)) (b ++ show_int a ++ [SP] ++ show_int c ++ tailv vs ++ r)%list =
  (VInt a :: VInt c :: map (fun v => VDbl (rnd v)) vs, false, r).
Proof.
  intros Hb Hr. cbn [scan_fields]. rewrite (scan_int_literal b (show_int a) a); [|auto|apply show_int_literal|exact white_SP].
  rewrite (scan_int_literal [SP] (show_int c) c); [|exact blank_SP|apply show_int_literal|now apply ends_tailv].
  now rewrite scan_tail.
Qed.

Lemma scan_entry_n n b a c vs r : length vs = n -> blank b -> ends r ->
  scan_fields scan_dbl (FInt :: FInt :: repeat FDbl n) (b ++ show_int a ++ [SP] ++ show_int c ++ tailv vs ++ r)%list =
  (VInt a :: VInt c :: map (fun v => VDbl (rnd v)) vs, false, r).
Proof. intros <-. apply scan_entry. Qed.

Lemma wr_got {A} (l : list A) nz i v : i < nz -> nth_error l i = Some v ->
  wr (got nz i l) i (Some v) = Ok (got nz (S i) l).
Proof.
  intros Hi Hv. assert (Hl : i < length l) by (apply nth_error_Some; congruence). unfold got, wr. rewrite app_length, map_length, firstn_length_le, repeat_length by lia.
  destruct (i <? i + (nz - i)) eqn:E; [|apply Nat.ltb_ge in E; lia]. f_equal.
  replace (nz - i) with (S (nz - S i)) by lia. cbn [repeat].
  assert (E1 : firstn (S i) l = (firstn i l ++ [v])%list).
  { clear - Hv. revert l Hv. induction i as [|i IH]; intros [|a l] H; try discriminate; cbn in *; [now injection H as ->|now rewrite <- IH]. }
  rewrite E1, map_app. cbn [map]. rewrite <- app_assoc. cbn [app].
  assert (U : forall (a b : list (option A)) o w, upd (a ++ o :: b) (length a) w = (a ++ w :: b)%list).
  { clear. induction a as [|q a IH]; intros b o w; cbn; [reflexivity|]. now rewrite IH. }
  pose proof (U (map Some (firstn i l)) (repeat None (nz - S i)) None (Some v)) as HU.
  rewrite map_length, firstn_length_le in HU by lia. exact HU.
Qed.

Lemma rd_got {A} (l : list A) nz i v : i < nz -> nth_error l i = Some v -> rd (got nz (S i) l) i = Ok (Some v).
Proof.
  intros Hi Hv. unfold got, rd. assert (i < length l) by (apply nth_error_Some; congruence).
  rewrite nth_error_app1 by (rewrite map_length, firstn_length_le; lia).
  rewrite nth_error_map, nth_error_firstn_lt by lia. now rewrite Hv.
Qed.

Lemma write_run : forall (vs : list V) A m p k l, length A = p -> length vs <= m ->
  (forall q v, nth_error vs q = Some v -> nth_error l (k + q) = Some (VDbl v)) ->
  foreach (combine (seq p (length vs)) (seq k (length vs))) (fun '(d, k) x => wr_dbl x d l k) (A ++ repeat None m)%list =
  Ok (A ++ map Some vs ++ repeat None (m - length vs))%list.
Proof.
  induction vs as [|v vs IH]; intros A m p k l HA Hm Hl.
  - cbn. now rewrite Nat.sub_0_r.
  - cbn [length seq combine foreach]. pose proof (Hl 0 v eq_refl) as H0. rewrite Nat.add_0_r in H0. unfold wr_dbl at 1. rewrite H0.
    destruct m as [|m]; [cbn in Hm; lia|]. cbn [repeat]. unfold wr. rewrite app_length. cbn [length]. rewrite repeat_length.
    destruct (p <? length A + S m) eqn:E; [|apply Nat.ltb_ge in E; lia]. cbn [bind].
    assert (U : forall (a b : list (option V)) o w, upd (a ++ o :: b) (length a) w = (a ++ w :: b)%list).
    { clear. induction a as [|q a IH]; intros b o w; cbn; [reflexivity|]. now rewrite IH. }
    rewrite <- HA at 2. rewrite U. change (A ++ Some v :: repeat None m)%list with (A ++ [Some v] ++ repeat None m)%list. rewrite app_assoc.
    rewrite (IH (A ++ [Some v])%list m (S p) (S k) l).
    + rewrite <- app_assoc. reflexivity.
    + rewrite app_length. cbn. lia.
    + cbn in Hm. lia.
    + intros q w Hq. replace (S k + q) with (k + S q) by lia. now apply Hl.
Qed.

Lemma write_run_n n (vs : list V) A m p k l : length vs = n -> length A = p -> n <= m ->
  (forall q v, nth_error vs q = Some v -> nth_error l (k + q) = Some (VDbl v)) ->
  foreach (combine (seq p n) (seq k n)) (fun '(d, k) x => wr_dbl x d l k) (A ++ repeat None m)%list = Ok (A ++ map Some vs ++ repeat None (m - n))%list.
Proof. intros <-. apply write_run. Qed.
Lemma got_step d nz i : d * S i <= length x -> S i <= nz ->
  foreach (combine (seq (d * i) d) (seq 2 d)) (fun '(q, k) y => wr_dbl y q
     (VInt (nth i Is 0%Z) :: VInt (nth i Js 0%Z) :: map (fun v => VDbl (rnd v)) (firstn d (skipn (d * i) x))) k) (got (d * nz) (d * i) (map rnd x)) =
  Ok (got (d * nz) (d * S i) (map rnd x)).
Proof.
  intros Hx Hi. set (vs := map rnd (firstn d (skipn (d * i) x))).
  assert (Hv : length vs = d) by (unfold vs; rewrite map_length, firstn_length_le; [lia|rewrite skipn_length; lia]).
  etransitivity.
  - unfold got. apply (write_run_n d vs); [exact Hv| | |].
    + rewrite map_length, firstn_length_le by (rewrite map_length; lia). reflexivity.
    + nia.
    + intros q v Hq. cbn [Nat.add nth_error]. unfold vs in Hq. rewrite nth_error_map in Hq. rewrite nth_error_map.
      destruct (nth_error (firstn d (skipn (d * i) x)) q); [|discriminate]. cbn in *. congruence.
  - unfold got. f_equal. rewrite app_assoc, <- map_app. f_equal.
    + f_equal. unfold vs. rewrite <- firstn_map, <- skipn_map. replace (d * S i) with (d * i + d) by lia. symmetry. apply firstn_plus.
    + f_equal. lia.
Qed.

Definition left_ (d j i : nat) : text := concat (map (entry d) (seq i (j - i))).
Lemma left_S d j i : i < j -> left_ d j i = (entry d i ++ left_ d j (S i))%list.
Proof. intros H. unfold left_. replace (j - i) with (S (j - S i)) by lia. reflexivity. Qed.
Lemma left_end d j : left_ d j j = [].
Proof. unfold left_. now rewrite Nat.sub_diag. Qed.

Lemma fscanf_entry d ws j i b : i < j -> d * S i <= length x -> blank b ->
  exists b', blank b' /\ fscanf scan_dbl (FInt :: FInt :: repeat FDbl d) ws (b ++ left_ d j i)%list =
    (VInt (nth i Is 0%Z) :: VInt (nth i Js 0%Z) :: map (fun v => VDbl (rnd v)) (firstn d (skipn (d * i) x)), (b' ++ left_ d j (S i))%list).
Proof.
  intros Hi Hx Hb. unfold fscanf. rewrite left_S by auto. unfold entry. rewrite <- !app_assoc.
  set (vs := firstn d (skipn (d * i) x)).
  assert (Hv : length vs = d) by (unfold vs; rewrite firstn_length_le; [lia|rewrite skipn_length; lia]).
  rewrite (scan_entry_n d b _ _ vs); [|exact Hv|exact Hb|exact white_NL].
  cbn [length]. rewrite map_length, repeat_length, Hv, Nat.eqb_refl, Bool.andb_true_r.
  destruct ws.
  - exists []. split; [exact blank_nil|]. f_equal. cbn [app]. cbn [skip_ws]. rewrite (proj2 (is_space_white NL) white_NL).
    destruct (Nat.eq_dec (S i) j) as [<-|].
    + now rewrite left_end.
    + rewrite left_S by lia. unfold entry. rewrite <- !app_assoc. pose proof (literal_nonempty _ _ (show_int_literal (nth (S i) Is 0%Z))) as Hne.
      pose proof (show_int_chars (nth (S i) Is 0%Z)) as Hc.
      destruct (show_int (nth (S i) Is 0%Z)) as [|c q]; [easy|]. cbn [app]. apply skip_ws_stop. apply (Hc c). now left.
  - exists [NL]. split; [intros c [<-|[]]; exact white_NL|]. reflexivity.
Qed.
Lemma fscanf_eof fs ws b : blank b -> fscanf scan_dbl (FInt :: fs) ws b = ([], []).
Proof. intros Hb. unfold fscanf. cbn [scan_fields]. unfold scan_int. rewrite skip_ws_all by auto. cbn. now destruct ws. Qed.

Lemma crd_loop_spec d fs ws dst nz j :
  fs = FInt :: FInt :: repeat FDbl d -> (forall i, dst i = seq (d * i) d) ->
  j <= nz -> j <= length Is -> j <= length Js -> d * j <= length x ->
  exists f', crd_loop scan_dbl nz fs ws dst (repeat None nz) (repeat None nz) (repeat None (d * nz)) (body d j) =
    Ok (if j =? nz then 0%Z else 12%Z, got nz j Is, got nz j Js, got (d * nz) (d * j) (map rnd x), f').
Proof.
  intros -> Hd Hj HI HJ Hx. unfold crd_loop.
  match goal with |- exists f', bind ?m _ = _ =>
    assert (W : wp m (fun '(code, a, b, c, f) => (code, a, b, c) = (if j =? nz then 0%Z else 12%Z, got nz j Is, got nz j Js, got (d * nz) (d * j) (map rnd x))))
  end.
  { apply (wp_forb (fun i '(code, a, b, c, f) => i <= j /\ (code, a, b, c) = (0%Z, got nz i Is, got nz i Js, got (d * nz) (d * i) (map rnd x)) /\
        exists bl, blank bl /\ f = (bl ++ left_ d j i)%list)).
    - lia.
    - split; [lia|]. split.
      + unfold got. rewrite Nat.mul_0_r, !Nat.sub_0_r. reflexivity.
      + exists []. split; [exact blank_nil|]. unfold body, left_. now rewrite Nat.sub_0_r.
    - intros i [[[[code a] b] c] f] Hi (Hij & [= -> -> -> ->] & bl & Hbl & ->).
      destruct (Nat.eq_dec i j) as [->|Hne].
      + rewrite left_end, app_nil_r, fscanf_eof by auto. cbn [bind wr_int nth_error wr_int].
        unfold wr_int. cbn [nth_error bind]. rewrite Hd.
        assert (F : forall l (y : list (option V)), foreach l (fun '(d, k) x => wr_dbl x d [] k) y = Ok y).
        { clear. induction l as [|[p q] l IH]; intros y; [reflexivity|]. cbn [foreach]. unfold wr_dbl at 1. destruct q; cbn [nth_error bind]; apply IH. }
        rewrite F. cbn [bind length Nat.eqb]. cbn [wp fst snd].
        destruct (j =? nz) eqn:E; [apply Nat.eqb_eq in E; lia|]. reflexivity.
      + assert (Hlt : i < j) by lia.
        destruct (fscanf_entry d ws j i bl Hlt ltac:(nia) Hbl) as (b' & Hb' & ->).
        unfold wr_int. cbn [nth_error].
        rewrite (wr_got Is nz i) by (try lia; apply nth_error_nth'; lia). cbn [bind].
        rewrite (wr_got Js nz i) by (try lia; apply nth_error_nth'; lia). cbn [bind].
        rewrite Hd, seq_length. rewrite got_step by (try lia; nia). cbn [bind].
        cbn [length]. rewrite map_length, repeat_length, firstn_length_le by (rewrite skipn_length; nia).
        rewrite Nat.eqb_refl. cbn [wp fst snd]. split; [lia|]. split; [reflexivity|]. eauto.
    - intros [[[[code a] b] c] f] (Hij & [= -> -> -> ->] & bl & Hbl & ->).
      assert (j = nz) by lia. subst j. now rewrite Nat.eqb_refl. }
  match goal with |- exists f', bind ?m _ = _ => destruct m as [[[[[code a] b] c] f]|e]; [|easy] end.
  cbn [wp] in W. injection W as -> -> -> ->. cbn [bind]. eauto.
Qed.

(** ** mm_read_unsymmetric_sparse *)
Definition preds (l : list Z) : list Z := map Z.pred l.
Lemma upd_twice {A} (l : list A) i v w : upd (upd l i v) i w = upd l i w.
Proof. revert i. induction l as [|h l IH]; intros [|i]; cbn; auto. now rewrite IH. Qed.
Lemma rd_upd {A} (l : list A) i v : i < length l -> rd (upd l i v) i = Ok v.
Proof.
  unfold rd. revert i. induction l as [|h l IH]; intros [|i] H; cbn in *; try lia; auto. apply IH. lia.
Qed.
Lemma got_length {A} (l : list A) nz i : i <= length l -> i <= nz -> length (got nz i l) = nz.
Proof. intros. unfold got. rewrite app_length, map_length, firstn_length_le, repeat_length by lia. lia. Qed.

Lemma dec_got l nz i z : i < nz -> nth_error l i = Some z ->
  wr (got nz i (preds l)) i (Some z) = Ok (upd (got nz i (preds l)) i (Some z)) /\
  dec_cell (upd (got nz i (preds l)) i (Some z)) i = Ok (got nz (S i) (preds l)).
Proof.
  intros Hi Hz. assert (Hl : i < length l) by (apply nth_error_Some; congruence).
  assert (Hg : length (got nz i (preds l)) = nz) by (apply got_length; [unfold preds; rewrite map_length|]; lia).
  split.
  - unfold wr. rewrite Hg. destruct (i <? nz) eqn:E; [reflexivity|]. apply Nat.ltb_ge in E. lia.
  - unfold dec_cell. rewrite rd_upd by lia. cbn [bind].
    assert (W : wr (got nz i (preds l)) i (Some (Z.pred z)) = Ok (got nz (S i) (preds l))).
    { apply wr_got; [exact Hi|]. unfold preds. now rewrite nth_error_map, Hz. }
    unfold wr in *. rewrite upd_length, upd_twice. unfold Z.pred in W. exact W.
Qed.

Definition unsym_step (i : nat) : list (option Z) * list (option Z) * list (option V) * text -> res (list (option Z) * list (option Z) * list (option V) * text) :=
  fun '(Is, Js, x, f) =>
              let '(l, f) := fscanf scan_dbl [FInt; FInt; FDbl] true f in
              Is <- wr_int Is i l 0 ;; Js <- wr_int Js i l 1 ;; x <- wr_dbl x i l 2 ;;
              Is <- dec_cell Is i ;; Js <- dec_cell Js i ;;
              Ok (Is, Js, x, f).

Lemma unsym_loop nz j : j <= nz -> j <= length Is -> j <= length Js -> j <= length x ->
  exists b, blank b /\ for_ 0 j unsym_step (repeat None nz, repeat None nz, repeat None nz, body 1 j) =
    Ok (got nz j (preds Is), got nz j (preds Js), got nz j (map rnd x), b).
Proof.
  intros Hj HI HJ Hx.
  assert (W : wp (for_ 0 j unsym_step (repeat None nz, repeat None nz, repeat None nz, body 1 j))
    (fun '(a, b, c, f) => (a, b, c) = (got nz j (preds Is), got nz j (preds Js), got nz j (map rnd x)) /\ exists bl, blank bl /\ f = (bl ++ left_ 1 j j)%list)).
  { apply (wp_for (fun i '(a, b, c, f) => (a, b, c) = (got nz i (preds Is), got nz i (preds Js), got nz i (map rnd x)) /\ exists bl, blank bl /\ f = (bl ++ left_ 1 j i)%list)).
    - lia.
    - split; [unfold got; now rewrite !Nat.sub_0_r|]. exists []. split; [exact blank_nil|]. unfold body, left_. now rewrite Nat.sub_0_r.
    - intros i [[[a b] c] f] Hi ([= -> -> ->] & bl & Hbl & ->). unfold unsym_step.
      destruct (fscanf_entry 1 true j i bl ltac:(lia) ltac:(lia) Hbl) as (b' & Hb' & E). cbn [repeat] in E. rewrite E. clear E.
      assert (Ex : exists v, nth_error x i = Some v). { destruct (nth_error x i) eqn:E; eauto. apply nth_error_None in E. lia. }
      destruct Ex as (v & Hv). rewrite Nat.mul_1_l, (skipn_hd i x v Hv). cbn [firstn map].
      unfold wr_int, wr_dbl. cbn [nth_error].
      destruct (dec_got Is nz i (nth i Is 0%Z)) as [-> D1]; [lia|apply nth_error_nth'; lia|]. cbn [bind].
      destruct (dec_got Js nz i (nth i Js 0%Z)) as [-> D2]; [lia|apply nth_error_nth'; lia|]. cbn [bind].
      rewrite (wr_got (map rnd x) nz i (rnd v)) by (try lia; now rewrite nth_error_map, Hv). cbn [bind]. rewrite D1, D2. cbn [bind wp].
      split; [reflexivity|]. eauto.
    - auto. }
  destruct (for_ 0 j unsym_step _) as [[[[a b] c] f]|e]; [|easy]. cbn [wp] in W. destruct W as ([= -> -> ->] & bl & Hbl & ->).
  exists (bl ++ left_ 1 j j)%list. rewrite left_end, app_nil_r. auto.
Qed.
Lemma unsym_short nz j b c y : j < nz -> j <= length Is -> blank b ->
  unsym_step j (got nz j (preds Is), c, y, b) = Err Uninit.
Proof.
  intros Hj HI Hb. unfold unsym_step. rewrite fscanf_eof by auto. unfold wr_int, wr_dbl. cbn [nth_error bind].
  unfold dec_cell at 1. unfold rd, got. rewrite nth_error_app2; rewrite map_length, firstn_length_le by (unfold preds; rewrite map_length; lia); [|lia].
  rewrite Nat.sub_diag. destruct (nz - j) eqn:E; [lia|]. reflexivity.
Qed.

(** ** The head of the file *)
Lemma read_head t str fuel M N nz rest : known t -> mm_typecode_to_str t = Ok (Some str) -> short M -> short N -> short nz ->
  exists f', mm_read_banner (head t str M N nz ++ rest)%list = Ok (0%Z, t, f') /\ mm_read_mtx_crd_size fuel f' = Ok (0%Z, [M; N; nz], rest).
Proof.
  intros Hk Hs HM HN Hz.
  set (size := (show_int M ++ [SP] ++ show_int N ++ [SP] ++ show_int nz ++ [NL])%list).
  exists (size ++ rest)%list. split.
  - destruct (C157_banner_roundtrip t (size ++ rest)%list Hk) as (out & W & R). unfold mm_write_banner in W. rewrite Hs in W. cbn [bind] in W. cbv zeta in W.
    assert (E : out = (MatrixMarketBanner ++ [SP] ++ str ++ [NL])%list) by congruence. subst out. rewrite <- R. f_equal. unfold head, size. rewrite <- !app_assoc. reflexivity.
  - destruct (C158_crd_size_roundtrip fuel [] M N nz rest (Forall_nil _) HM HN Hz) as (out & W & R). unfold mm_write_mtx_crd_size in W. cbv zeta in W.
    assert (E : out = size) by (unfold size; congruence). subst out. exact R.
Qed.
Lemma known_str t : known t -> exists str, mm_typecode_to_str t = Ok (Some str).
Proof.
  destruct t as [a b c d]. intros (H0 & H1 & H2 & H3). cbn [tc0 tc1 tc2 tc3 map snd formats fields symmetries In] in *. subst a.
  destruct H1 as [<-|[<-|[]]]; destruct H2 as [<-|[<-|[<-|[<-|[]]]]]; destruct H3 as [<-|[<-|[<-|[<-|[]]]]]; eexists; reflexivity.
Qed.

(** ** Whole files *)
Definition values (t : typecode) (nz j : nat) : option (list (option V)) :=
  if ascii_dec (tc2 t) "P" then None else Some (got (per t * nz) (per t * j) (map rnd x)).

Lemma read_crd t str fuel M N nz j : file_type t -> allowed t -> mm_typecode_to_str t = Ok (Some str) -> short M -> short N -> short (Z.of_nat nz) ->
  j <= nz -> j <= length Is -> j <= length Js -> per t * j <= length x ->
  mm_read_mtx_crd scan_dbl fuel (Some (head t str M N (Z.of_nat nz) ++ body (per t) j)%list) =
  Ok (if j =? nz then 0%Z else 12%Z, Some (mkCrd M N (Z.of_nat nz) (got nz j Is) (got nz j Js) (values t nz j) t)).
Proof.
  intros (Hk & H1 & H2) Ha Hs HM HN Hz Hj HI HJ Hx. unfold mm_read_mtx_crd.
  destruct (read_head t str fuel M N (Z.of_nat nz) (body (per t) j) Hk Hs HM HN Hz) as (f' & -> & E). cbn [bind Z.eqb negb].
  rewrite (proj2 (C157_valid t) Ha).
  assert (E1 : mm_is_sparse t = true) by (unfold mm_is_sparse, is; rewrite H1; now destruct (ascii_dec "C" "C")).
  assert (E0 : mm_is_matrix t = true) by (unfold mm_is_matrix, is; destruct Hk as (-> & _); now destruct (ascii_dec "M" "M")).
  rewrite E1, E0. cbn [andb negb]. rewrite E. cbn [bind Z.eqb negb nth]. cbv zeta. rewrite Nat2Z.id.
  unfold mm_read_mtx_crd_data, mm_is_complex, mm_is_real, mm_is_pattern, is, values. unfold per in *.
  destruct H2 as [E2|[E2|[E2|[]]]]; rewrite <- E2 in *.
  - destruct (ascii_dec "R" "C"); [discriminate|]. destruct (ascii_dec "R" "R"); [|easy]. destruct (ascii_dec "R" "P"); [discriminate|].
    destruct (crd_loop_spec 1 [FInt; FInt; FDbl] true (fun i => [i]) nz j) as (f2 & E3); auto.
    { intros i. cbn. now rewrite Nat.add_0_r. }
    rewrite Nat.mul_1_l in E3 at 1. rewrite E3. reflexivity.
  - destruct (ascii_dec "C" "C"); [|easy]. destruct (ascii_dec "C" "R"); [discriminate|]. destruct (ascii_dec "C" "P"); [discriminate|].
    destruct (crd_loop_spec 2 [FInt; FInt; FDbl; FDbl] false (fun i => [2 * i; 2 * i + 1]) nz j) as (f2 & E3); auto.
    { intros i. cbn [seq]. now rewrite Nat.add_1_r. }
    rewrite E3. reflexivity.
  - destruct (ascii_dec "P" "C"); [discriminate|]. destruct (ascii_dec "P" "R"); [discriminate|]. destruct (ascii_dec "P" "P"); [|easy].
    destruct (crd_loop_spec 0 [FInt; FInt] false (fun i => []) nz j) as (f2 & E3); auto.
    cbn [Nat.mul repeat] in E3. rewrite E3. reflexivity.
Qed.

Lemma read_unsym t str fuel M N nz j : file_type t -> tc2 t = "R"%char -> mm_typecode_to_str t = Ok (Some str) -> short M -> short N -> short (Z.of_nat nz) ->
  j <= nz -> j <= length Is -> j <= length Js -> j <= length x ->
  mm_read_unsymmetric_sparse scan_dbl fuel (Some (head t str M N (Z.of_nat nz) ++ body 1 j)%list) =
  if j =? nz then Ok (0%Z, Some (mkCrd M N (Z.of_nat nz) (got nz j (preds Is)) (got nz j (preds Js)) (Some (got nz j (map rnd x))) t)) else Err Uninit.
Proof.
  intros (Hk & H1 & H2) HR Hs HM HN Hz Hj HI HJ Hx. unfold mm_read_unsymmetric_sparse.
  destruct (read_head t str fuel M N (Z.of_nat nz) (body 1 j) Hk Hs HM HN Hz) as (f' & -> & E). cbn [bind Z.eqb negb].
  assert (E1 : mm_is_sparse t = true) by (unfold mm_is_sparse, is; rewrite H1; now destruct (ascii_dec "C" "C")).
  assert (E0 : mm_is_matrix t = true) by (unfold mm_is_matrix, is; destruct Hk as (-> & _); now destruct (ascii_dec "M" "M")).
  assert (E2 : mm_is_real t = true) by (unfold mm_is_real, is; rewrite HR; now destruct (ascii_dec "R" "R")).
  rewrite E1, E0, E2. cbn [andb negb]. rewrite E. cbn [bind Z.eqb negb nth]. cbv zeta. rewrite Nat2Z.id.
  change (for_ 0 nz _ ?s) with (for_ 0 nz unsym_step s).
  destruct (unsym_loop nz j Hj HI HJ Hx) as (b & Hb & L).
  rewrite (for_split unsym_step 0 j nz) by lia. rewrite L. cbn [bind].
  destruct (j =? nz) eqn:Ej.
  - apply Nat.eqb_eq in Ej. subst j. unfold for_. rewrite Nat.sub_diag. reflexivity.
  - apply Nat.eqb_neq in Ej. unfold for_. replace (nz - j) with (S (nz - S j)) by lia. cbn [for_n].
    now rewrite unsym_short by (auto; lia).
Qed.
End Crd.

(** * C159 *)
Lemma got_all {A} (l : list A) nz : length l = nz -> got nz nz l = map Some l.
Proof. intros <-. unfold got. rewrite firstn_all, Nat.sub_diag. apply app_nil_r. Qed.

(** A file of a real, complex or pattern matrix is read back: sizes, type, indices and the printed values. *)
Theorem C159_roundtrip : forall (V : Type) scan_dbl show_dbl (rnd : V -> V) fuel M N nz Is Js x t,
  dbl_ok scan_dbl show_dbl rnd -> file_type t -> allowed t -> short M -> short N -> short (Z.of_nat nz) ->
  length Is = nz -> length Js = nz -> length x = per t * nz ->
  exists out, mm_write_mtx_crd show_dbl M N (Z.of_nat nz) Is Js x t = Ok (0%Z, out) /\
    mm_read_mtx_crd scan_dbl fuel (Some out) =
    Ok (0%Z, Some (mkCrd M N (Z.of_nat nz) (map Some Is) (map Some Js)
      (if ascii_dec (tc2 t) "P" then None else Some (map (fun v => Some (rnd v)) x)) t)).
Proof.
  intros V scan_dbl show_dbl rnd fuel M N nz Is Js x t Hd Ht Ha HM HN Hz HI HJ Hx.
  destruct (known_str t (proj1 Ht)) as (str & Hs).
  exists (head t str M N (Z.of_nat nz) ++ body show_dbl Is Js x (per t) nz)%list. split.
  - apply write_ok; auto; lia.
  - rewrite (read_crd scan_dbl show_dbl rnd Hd Is Js x t str fuel M N nz nz) by (auto; lia).
    rewrite Nat.eqb_refl, !got_all by auto. unfold values. destruct (ascii_dec (tc2 t) "P"); [reflexivity|].
    rewrite got_all by (rewrite map_length; lia). now rewrite map_map.
Qed.
Print Assumptions C159_roundtrip.

(** A file with fewer entries than its size line announces: the one reader reports the end of the file and leaves the
    rest of its arrays unwritten, the other one computes with unwritten memory. *)
Theorem C159_truncated : forall (V : Type) scan_dbl show_dbl (rnd : V -> V) fuel M N nz j Is Js x t,
  dbl_ok scan_dbl show_dbl rnd -> file_type t -> allowed t -> short M -> short N -> short (Z.of_nat nz) -> j < nz ->
  length Is = j -> length Js = j -> length x = per t * j ->
  exists banner rest, mm_write_banner t = Ok (17%Z, banner) /\
    mm_write_mtx_crd show_dbl M N (Z.of_nat j) Is Js x t = Ok (0%Z, (banner ++ snd (mm_write_mtx_crd_size M N (Z.of_nat j)) ++ rest)%list) /\
    let file := (banner ++ snd (mm_write_mtx_crd_size M N (Z.of_nat nz)) ++ rest)%list in
    (exists c, mm_read_mtx_crd scan_dbl fuel (Some file) = Ok (12%Z, Some c) /\
      cI c = (map Some Is ++ repeat None (nz - j))%list /\ cJ c = (map Some Js ++ repeat None (nz - j))%list) /\
    (tc2 t = "R"%char -> mm_read_unsymmetric_sparse scan_dbl fuel (Some file) = Err Uninit).
Proof.
  intros V scan_dbl show_dbl rnd fuel M N nz j Is Js x t Hd Ht Ha HM HN Hz Hj HI HJ Hx.
  destruct (known_str t (proj1 Ht)) as (str & Hs).
  destruct (C157_banner_roundtrip t [] (proj1 Ht)) as (banner & W & _).
  exists banner, (body show_dbl Is Js x (per t) j).
  assert (Hb : banner = (MatrixMarketBanner ++ [SP] ++ str ++ [NL])%list).
  { unfold mm_write_banner in W. rewrite Hs in W. cbn [bind] in W. cbv zeta in W. congruence. }
  assert (Hh : forall k, (banner ++ snd (mm_write_mtx_crd_size M N k) ++ body show_dbl Is Js x (per t) j)%list =
                         (head t str M N k ++ body show_dbl Is Js x (per t) j)%list).
  { intros k. subst banner. unfold head, mm_write_mtx_crd_size. cbn [snd]. rewrite <- !app_assoc. reflexivity. }
  split; [exact W|]. split; [|cbv zeta; split].
  - rewrite Hh. apply write_ok; auto; lia.
  - eexists. rewrite Hh. split.
    + rewrite (read_crd scan_dbl show_dbl rnd Hd Is Js x t str fuel M N nz j) by (auto; lia).
      assert (E : (j =? nz) = false) by (apply Nat.eqb_neq; lia). rewrite E. reflexivity.
    + cbn [cI cJ]. unfold got. subst j. rewrite firstn_all. split; [reflexivity|]. rewrite <- HJ at 1. now rewrite firstn_all.
  - intros HR. rewrite Hh.
    assert (Hp : per t = 1) by (unfold per; rewrite HR; reflexivity). rewrite Hp in *.
    rewrite (read_unsym scan_dbl show_dbl rnd Hd Is Js x t str fuel M N nz j) by (auto; lia).
    assert (E : (j =? nz) = false) by (apply Nat.eqb_neq; lia). now rewrite E.
Qed.
Print Assumptions C159_truncated.

(** mm_read_unsymmetric_sparse: any real coordinate file, also of a symmetric matrix, with all indices lowered by one; so
    writing what it has read does not give the file again *)
Theorem C159_unsymmetric : forall (V : Type) scan_dbl show_dbl (rnd : V -> V) fuel M N nz Is Js x t,
  dbl_ok scan_dbl show_dbl rnd -> file_type t -> tc2 t = "R"%char -> short M -> short N -> short (Z.of_nat nz) ->
  length Is = nz -> length Js = nz -> length x = nz ->
  exists out, mm_write_mtx_crd show_dbl M N (Z.of_nat nz) Is Js x t = Ok (0%Z, out) /\
    mm_read_unsymmetric_sparse scan_dbl fuel (Some out) =
    Ok (0%Z, Some (mkCrd M N (Z.of_nat nz) (map (fun z => Some (z - 1)%Z) Is) (map (fun z => Some (z - 1)%Z) Js) (Some (map (fun v => Some (rnd v)) x)) t)).
Proof.
  intros V scan_dbl show_dbl rnd fuel M N nz Is Js x t Hd Ht HR HM HN Hz HI HJ Hx.
  destruct (known_str t (proj1 Ht)) as (str & Hs).
  assert (Hp : per t = 1) by (unfold per; rewrite HR; reflexivity).
  exists (head t str M N (Z.of_nat nz) ++ body show_dbl Is Js x 1 nz)%list. split.
  - rewrite <- Hp. apply write_ok; auto; lia.
  - rewrite (read_unsym scan_dbl show_dbl rnd Hd Is Js x t str fuel M N nz nz) by (auto; lia).
    rewrite Nat.eqb_refl, !got_all by (unfold preds; rewrite ?map_length; auto). unfold preds. rewrite !map_map. reflexivity.
Qed.
Print Assumptions C159_unsymmetric.

(** Types that the format does not allow are written without complaint and refused when read. *)
Theorem C159_not_allowed : forall (V : Type) (scan_dbl : text -> scan V) show_dbl fuel M N nz Is Js (x : list V) t,
  file_type t -> ~ allowed t -> short M -> short N -> short (Z.of_nat nz) -> length Is = nz -> length Js = nz -> length x = per t * nz ->
  exists out, mm_write_mtx_crd show_dbl M N (Z.of_nat nz) Is Js x t = Ok (0%Z, out) /\
    mm_read_mtx_crd scan_dbl fuel (Some out) = Ok (15%Z, None).
Proof.
  intros V scan_dbl show_dbl fuel M N nz Is Js x t Ht Ha HM HN Hz HI HJ Hx.
  destruct (known_str t (proj1 Ht)) as (str & Hs).
  exists (head t str M N (Z.of_nat nz) ++ body show_dbl Is Js x (per t) nz)%list. split; [apply write_ok; auto; lia|].
  unfold mm_read_mtx_crd.
  destruct (read_head t str fuel M N (Z.of_nat nz) (body show_dbl Is Js x (per t) nz) (proj1 Ht) Hs HM HN Hz) as (f' & -> & _). cbn [bind Z.eqb negb].
  destruct (mm_is_valid t) eqn:E; [exfalso; apply Ha; now apply C157_valid|]. reflexivity.
Qed.
Print Assumptions C159_not_allowed.

(** Integer matrices: the reader reports success and has read no entry; the writer refuses, with the head already written. *)
Theorem C159_integer_not_read : forall (V : Type) (scan_dbl : text -> scan V) fuel f t f1 M N nz f2,
  mm_read_banner f = Ok (0%Z, t, f1) -> tc1 t = "C"%char -> tc2 t = "I"%char -> tc0 t = "M"%char ->
  mm_read_mtx_crd_size fuel f1 = Ok (0%Z, [M; N; nz], f2) ->
  mm_read_mtx_crd scan_dbl fuel (Some f) = Ok (0%Z, Some (mkCrd M N nz (repeat None (Z.to_nat nz)) (repeat None (Z.to_nat nz)) None t)).
Proof.
  intros V scan_dbl fuel f t f1 M N nz f2 Hb H1 H2 H0 Hs. unfold mm_read_mtx_crd. rewrite Hb. cbn [bind Z.eqb negb].
  assert (E : mm_is_valid t = true).
  { apply C157_valid. unfold allowed. rewrite H0, H1, H2. intuition discriminate. }
  assert (E1 : mm_is_sparse t = true) by (unfold mm_is_sparse, is; rewrite H1; now destruct (ascii_dec "C" "C")).
  assert (E0 : mm_is_matrix t = true) by (unfold mm_is_matrix, is; rewrite H0; now destruct (ascii_dec "M" "M")).
  rewrite E, E1, E0. cbn [andb negb]. rewrite Hs. cbn [bind Z.eqb negb nth]. cbv zeta.
  unfold mm_is_complex, mm_is_real, mm_is_pattern, is. rewrite H2.
  destruct (ascii_dec "I" "C"); [discriminate|]. destruct (ascii_dec "I" "R"); [discriminate|]. destruct (ascii_dec "I" "P"); [discriminate|]. reflexivity.
Qed.
Print Assumptions C159_integer_not_read.

Theorem C159_integer_not_written : forall (V : Type) (show_dbl : V -> text) M N nz Is Js x t, known t -> tc2 t = "I"%char ->
  exists banner, mm_write_banner t = Ok (17%Z, banner) /\
    mm_write_mtx_crd show_dbl M N nz Is Js x t = Ok (15%Z, (banner ++ snd (mm_write_mtx_crd_size M N nz))%list).
Proof.
  intros V show_dbl M N nz Is Js x t Hk H2. destruct (known_str t Hk) as (str & Hs).
  destruct (C157_banner_roundtrip t [] Hk) as (banner & W & _). exists banner. split; [exact W|].
  assert (Hb : banner = (MatrixMarketBanner ++ [SP] ++ str ++ [NL])%list).
  { unfold mm_write_banner in W. rewrite Hs in W. cbn [bind] in W. cbv zeta in W. congruence. }
  unfold mm_write_mtx_crd. rewrite Hs. cbn [bind]. cbv zeta. unfold mm_is_pattern, mm_is_real, mm_is_complex, is. rewrite H2.
  destruct (ascii_dec "I" "P"); [discriminate|]. destruct (ascii_dec "I" "R"); [discriminate|]. destruct (ascii_dec "I" "C"); [discriminate|].
  subst banner. unfold mm_write_mtx_crd_size. cbn [snd]. do 2 f_equal. rewrite <- !app_assoc. reflexivity.
Qed.
Print Assumptions C159_integer_not_written.

(** mm_read_mtx_crd_entry reads one line of such a file *)
Theorem C159_entry : forall (V : Type) scan_dbl show_dbl (rnd : V -> V) t a b vs rest,
  dbl_ok scan_dbl show_dbl rnd -> In (tc2 t) ["R"; "C"; "P"]%char -> length vs = per t ->
  exists rest', mm_read_mtx_crd_entry scan_dbl t (show_int a ++ [SP] ++ show_int b ++ concat (map (fun v => SP :: show_dbl v) vs) ++ [NL] ++ rest)%list =
    (0%Z, VInt a :: VInt b :: map (fun v => VDbl (rnd v)) vs, rest').
Proof.
  intros V scan_dbl show_dbl rnd t a b vs rest Hd H2 Hv.
  assert (E : scan_fields scan_dbl (FInt :: FInt :: repeat FDbl (per t)) (show_int a ++ [SP] ++ show_int b ++ concat (map (fun v => SP :: show_dbl v) vs) ++ [NL] ++ rest)%list =
    (VInt a :: VInt b :: map (fun v => VDbl (rnd v)) vs, false, ([NL] ++ rest)%list)).
  { exact (scan_entry_n scan_dbl show_dbl rnd Hd (per t) [] a b vs ([NL] ++ rest)%list Hv blank_nil white_NL). }
  unfold mm_read_mtx_crd_entry, fscanf, mm_is_complex, mm_is_real, mm_is_pattern, is. cbv zeta. unfold per in *.
  destruct H2 as [E2|[E2|[E2|[]]]]; rewrite <- E2 in *.
  - destruct (ascii_dec "R" "C"); [discriminate|]. destruct (ascii_dec "R" "R"); [|easy]. cbn [repeat] in E. rewrite E.
    cbn [length]. rewrite map_length, Hv. cbn [Nat.eqb]. eauto.
  - destruct (ascii_dec "C" "C"); [|easy]. cbn [repeat] in E. rewrite E. cbn [length]. rewrite map_length, Hv. cbn [Nat.eqb]. eauto.
  - destruct (ascii_dec "P" "C"); [discriminate|]. destruct (ascii_dec "P" "R"); [discriminate|]. destruct (ascii_dec "P" "P"); [|easy].
    cbn [repeat] in E. rewrite E. cbn [length]. rewrite map_length, Hv. cbn [Nat.eqb]. eauto.
Qed.
Print Assumptions C159_entry.

(** the code says whether all fields of the entry have been assigned; at the end of the file none is *)
Theorem C159_entry_code : forall (V : Type) (scan_dbl : text -> scan V) t f code l rest,
  mm_read_mtx_crd_entry scan_dbl t f = (code, l, rest) ->
  (In (tc2 t) ["R"; "C"; "P"]%char -> (code = 0%Z /\ length l = 2 + per t) \/ (code = 12%Z /\ length l < 2 + per t)) /\
  (In (tc2 t) ["R"; "C"; "P"]%char -> blank f -> code = 12%Z /\ l = []) /\
  (~ In (tc2 t) ["R"; "C"; "P"]%char -> code = 15%Z /\ l = [] /\ rest = f).
Proof.
  intros V scan_dbl t f code l rest H.
  assert (L : forall fs f l e r, scan_fields scan_dbl fs f = (l, e, r) -> length l <= length fs).
  { clear. induction fs as [|[|] fs IH]; intros f l e r; cbn [scan_fields].
    - intros [= <- _ _]. auto.
    - destruct (scan_int f) as [z r'|r'|]; [|intros [= <- _ _]; cbn; lia|intros [= <- _ _]; cbn; lia].
      destruct (scan_fields scan_dbl fs r') as ((zs & e') & r'') eqn:E. intros [= <- _ _]. cbn [length]. apply IH in E. lia.
    - destruct (scan_dbl f) as [z r'|r'|]; [|intros [= <- _ _]; cbn; lia|intros [= <- _ _]; cbn; lia].
      destruct (scan_fields scan_dbl fs r') as ((zs & e') & r'') eqn:E. intros [= <- _ _]. cbn [length]. apply IH in E. lia. }
  pose proof skip_ws_all as Bl.
  assert (G : forall fs ws, (let '(l, f0) := fscanf scan_dbl fs ws f in (if length l =? length fs then 0%Z else MM_PREMATURE_EOF, l, f0)) = (code, l, rest) ->
    (code = 0%Z /\ length l = length fs) \/ (code = 12%Z /\ length l < length fs)).
  { intros fs ws. unfold fscanf. destruct (scan_fields scan_dbl fs f) as ((l' & e) & r) eqn:E. apply L in E. intros [= <- -> _].
    destruct (Nat.eqb_spec (length l) (length fs)); [left|right]; split; auto; lia. }
  assert (G0 : forall fs ws, blank f -> (let '(l, f0) := fscanf scan_dbl (FInt :: fs) ws f in (if length l =? length (FInt :: fs) then 0%Z else MM_PREMATURE_EOF, l, f0)) = (code, l, rest) ->
    code = 12%Z /\ l = []).
  { intros fs ws Hb. unfold fscanf. cbn [scan_fields]. unfold scan_int. rewrite (Bl f Hb). cbn [length Nat.eqb]. intros [= <- <- _]. auto. }
  unfold mm_read_mtx_crd_entry, mm_is_complex, mm_is_real, mm_is_pattern, is in H. cbv zeta in H. unfold per.
  destruct (ascii_dec (tc2 t) "C") as [E|NC].
  { splits; [intros _; exact (G _ _ H)|intros _ Hb; exact (G0 _ _ Hb H)|intros N; exfalso; apply N; rewrite E; cbn; auto]. }
  destruct (ascii_dec (tc2 t) "R") as [E|NR].
  { splits; [intros _; exact (G _ _ H)|intros _ Hb; exact (G0 _ _ Hb H)|intros N; exfalso; apply N; rewrite E; cbn; auto]. }
  destruct (ascii_dec (tc2 t) "P") as [E|NP].
  { splits; [intros _; exact (G _ _ H)|intros _ Hb; exact (G0 _ _ Hb H)|intros N; exfalso; apply N; rewrite E; cbn; auto]. }
  injection H as <- <- <-. splits; auto; cbn; intuition congruence.
Qed.
Print Assumptions C159_entry_code.

(** a file that cannot be opened, and one whose banner or sizes are not read: the first reader hands the code on, the second
    returns -1 *)
Theorem C159_no_header : forall (V : Type) (scan_dbl : text -> scan V) fuel,
  mm_read_mtx_crd scan_dbl fuel None = Ok (11%Z, None) /\ mm_read_unsymmetric_sparse scan_dbl fuel None = Ok ((-1)%Z, None) /\
  (forall f code t rest, mm_read_banner f = Ok (code, t, rest) -> code <> 0%Z ->
     mm_read_mtx_crd scan_dbl fuel (Some f) = Ok (code, None) /\ mm_read_unsymmetric_sparse scan_dbl fuel (Some f) = Ok ((-1)%Z, None)) /\
  (forall f t rest code vars rest', mm_read_banner f = Ok (0%Z, t, rest) -> file_type t -> allowed t -> mm_read_mtx_crd_size fuel rest = Ok (code, vars, rest') -> code <> 0%Z ->
     mm_read_mtx_crd scan_dbl fuel (Some f) = Ok (code, None) /\
     (tc2 t = "R"%char -> mm_read_unsymmetric_sparse scan_dbl fuel (Some f) = Ok ((-1)%Z, None))).
Proof.
  intros V scan_dbl fuel. splits; [reflexivity|reflexivity| |].
  - intros f code t rest E N. unfold mm_read_mtx_crd, mm_read_unsymmetric_sparse. rewrite E. cbn [bind]. apply Z.eqb_neq in N. rewrite N. split; reflexivity.
  - intros f t rest code vars rest' E Ft Al Es N. unfold mm_read_mtx_crd, mm_read_unsymmetric_sparse. rewrite E. cbn [bind]. change (0 =? 0)%Z with true. cbn [negb].
    apply Z.eqb_neq in N. apply C157_valid in Al. destruct Ft as ((H0 & H1 & H2 & H3) & F1 & F2).
    unfold mm_is_sparse, mm_is_matrix, mm_is_real, is. rewrite Al, H0, F1, Es. cbn [bind]. rewrite N. cbn. split; [reflexivity|]. intros ->. reflexivity.
Qed.
Print Assumptions C159_no_header.

(** whole numbers printed by %d stand for the doubles *)
Example C159_case : dbl_ok scan_int show_int (fun z => z) /\ file_type (mkTC "M" "C" "R" "S") /\ allowed (mkTC "M" "C" "R" "S") /\ short 3 /\
  mm_write_mtx_crd show_int 3 3 2 [1; 3]%Z [1; 2]%Z [-5; 70]%Z (mkTC "M" "C" "R" "S") =
    Ok (0%Z, (chars "%%MatrixMarket matrix coordinate real symmetric" ++ [NL] ++ chars "3 3 2" ++ [NL] ++ chars "1 1 -5" ++ [NL] ++ chars "3 2 70" ++ [NL])%list) /\
  file_type (mkTC "M" "C" "R" "H") /\ ~ allowed (mkTC "M" "C" "R" "H").
Proof.
  splits.
  - intros v rest Hr. exact (scan_int_literal [SP] (show_int v) v rest blank_SP (show_int_literal v) Hr).
  - unfold file_type, known. cbn. auto 12.
  - unfold allowed. cbn. intuition discriminate.
  - unfold short. apply Nat.leb_le. vm_compute. reflexivity.
  - vm_compute. reflexivity.
  - unfold file_type, known. cbn. auto 12.
  - unfold allowed. cbn. tauto.
Qed.
Example C159_case_integer :
  mm_read_mtx_crd scan_int 0 (Some (chars "%%MatrixMarket matrix coordinate integer general" ++ [NL] ++ chars "2 2 1" ++ [NL] ++ chars "1 1 7" ++ [NL])%list) =
  Ok (0%Z, Some (mkCrd 2 2 1 [None] [None] None (mkTC "M" "C" "I" "G"))).
Proof. vm_compute. reflexivity. Qed.
Example C159_case_codes :
  mm_read_mtx_crd_entry scan_int (mkTC "M" "C" "R" "G") (chars "4 5") = (12%Z, [VInt 4; VInt 5], []) /\
  mm_read_mtx_crd_entry scan_int (mkTC "M" "C" "I" "G") (chars "4 5") = (15%Z, [], chars "4 5") /\
  mm_read_mtx_crd scan_int 1 (Some (chars "%%MatrixMarket matrix coordinate real general" ++ [NL])%list) = Ok (12%Z, None).
Proof. splits; vm_compute; reflexivity. Qed.
