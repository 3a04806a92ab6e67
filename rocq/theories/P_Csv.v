(** Property C137: the file written by CSVManager. *)
From Coq Require Import ZifyBool ZifyNat.
From Verif Require Import Base Lib Lib2 M_TestUtil M_Demo P_Compare.

(** * What the file should be *)

(** one line *)
Fixpoint line (l : list str) : str :=
  match l with
  | [] => [newline]
  | [x] => x ++ [newline]
  | x :: r => x ++ comma :: line r
  end.

(** the last value given for a column *)
Fixpoint latest (pend : list (str * str)) (col : str) : option str :=
  match pend with
  | [] => None
  | (e, c) :: r => match latest r col with Some v => Some v | None => if str_eqb c col then Some e else None end
  end.

Definition complete (names : list str) (pend : list (str * str)) (vals : list str) : Prop :=
  length vals = length names /\ forall k, k < length names -> latest pend names.[k] = Some vals.[k].

(** [log names ops recs pend]: after these operations the records [recs] have been added; [pend]: values given since *)
Inductive log (names : list str) : list csv_op -> list (list str) -> list (str * str) -> Prop :=
| log_start : log names [] [] []
| log_add ops recs pend e c : log names ops recs pend -> log names (ops ++ [Add e c]) recs (pend ++ [(e, c)])
| log_rec ops recs pend vals : log names ops recs pend -> complete names pend vals -> log names (ops ++ [Rec]) (recs ++ [vals]) []
| log_incomplete ops recs pend : log names ops recs pend -> (forall vals, ~ complete names pend vals) -> log names (ops ++ [Rec]) recs pend.

(** * Proofs *)

Lemma put_line_ok l f : l <> [] -> put_line l f = Ok (f ++ line l).
Proof.
  intros Hl. unfold put_line. destruct (rev l) as [|x r] eqn:E; [exfalso; apply Hl; rewrite <- (rev_involutive l), E; reflexivity|].
  f_equal. assert (El : l = rev r ++ [x]) by (rewrite <- (rev_involutive l), E; reflexivity). rewrite El. clear. generalize (rev r). intros p. revert f.
  induction p as [|y p IH]; intros f; [reflexivity|]. cbn [fold_left app]. rewrite IH. rewrite <- !app_assoc. do 2 f_equal.
  destruct p; reflexivity.
Qed.

Lemma str_eqb_eq a b : str_eqb a b = true <-> a = b.
Proof. unfold str_eqb. destruct (list_eq_dec _ a b); split; auto; discriminate. Qed.

Lemma find_index_some x l k : find_index x l = Some k -> k < length l /\ l.[k] = x /\ forall j, j < k -> l.[j] <> x.
Proof.
  revert k. induction l as [|y l IH]; intros k; cbn [find_index]; [discriminate|]. destruct (str_eqb x y) eqn:E.
  - intros H. injection H as <-. apply str_eqb_eq in E. cbn. splits; auto; lia.
  - destruct (find_index x l) as [i|] eqn:Ei; [|discriminate]. cbn [option_map]. intros H. injection H as <-. destruct (IH i eq_refl) as (A & B & C).
    cbn [length]. splits; [lia|exact B|]. intros j Hj. destruct j as [|j]; [|apply C; lia]. cbn. intros ->. assert (str_eqb x x = true) by now apply str_eqb_eq. congruence.
Qed.

Lemma find_index_none x l : find_index x l = None -> ~ In x l.
Proof.
  induction l as [|y l IH]; cbn [find_index]; [auto|]. destruct (str_eqb x y) eqn:E; [discriminate|]. destruct (find_index x l); [discriminate|].
  intros _ [->|H]; [|now apply IH]. assert (str_eqb x x = true) by now apply str_eqb_eq. congruence.
Qed.

Lemma latest_snoc pend e c col : latest (pend ++ [(e, c)]) col = if str_eqb c col then Some e else latest pend col.
Proof.
  induction pend as [|[e' c'] r IH]; cbn [app latest]; [destruct (str_eqb c col); reflexivity|]. rewrite IH. destruct (str_eqb c col); [reflexivity|]. reflexivity.
Qed.


Lemma complete_check names pend (st : list bool) (re : list str) : length re = length names ->
  (forall k, k < length names -> (st.[k] = true <-> latest pend names.[k] <> None) /\ (forall v, latest pend names.[k] = Some v -> re.[k] = v)) ->
  (forallb (fun i => st.[i]) (seq 0 (length names)) = true -> complete names pend re) /\
  (forallb (fun i => st.[i]) (seq 0 (length names)) = false -> forall vals, ~ complete names pend vals).
Proof.
  intros L2 H. split.
  - intros F. rewrite forallb_seq in F. split; [auto|]. intros k Hk. destruct (H k Hk) as (A & B). specialize (F k ltac:(lia)). apply A in F.
    destruct (latest pend names.[k]) as [v|] eqn:E; [|congruence]. now rewrite (B v eq_refl).
  - intros F vals (_ & C). apply not_true_iff_false in F. apply F. apply forallb_seq. intros k Hk. apply H; [lia|]. rewrite C by lia. discriminate.
Qed.

Lemma scan_ok m (st : list bool) : m <= length st ->
  forb_ 0 m (fun i _ => b <- rd st i ;; Ok (if b : bool then (false, true) else (true, false))) true = Ok (forallb (fun i => st.[i]) (seq 0 m)).
Proof.
  intros L. match goal with |- ?x = _ => assert (G : wp x (fun r => r = forallb (fun i => st.[i]) (seq 0 m))) end.
  { apply (wp_forb (fun i r => r = true /\ forall k, k < i -> st.[k] = true)); [lia|split; [auto|lia]| |].
    - intros i r Hi (-> & I). apply wp_bind. apply wp_rd; [lia|]. apply wp_ret. destruct st.[i] eqn:E.
      + split; auto. intros k Hk. destruct (Nat.eq_dec k i) as [->|]; auto. apply I. lia.
      + symmetry. apply not_true_iff_false. rewrite forallb_seq. intros F. specialize (F i ltac:(lia)). congruence.
    - intros r (-> & I). symmetry. apply forallb_seq. intros i Hi. apply I. lia. }
  apply wp_ok in G. destruct G as (r & -> & ->). reflexivity.
Qed.

Definition csv_inv (names : list str) (f0 : str) (recs : list (list str)) (pend : list (str * str)) (c : csv) : Prop :=
  c_names c = names /\ length (c_status c) = length names /\ length (c_record c) = length names /\
  c_file c = f0 ++ flat_map line recs /\ (c_busy c = true <-> pend <> []) /\
  (c_busy c = true -> forall k, k < length names ->
    ((c_status c).[k] = true <-> latest pend names.[k] <> None) /\ (forall v, latest pend names.[k] = Some v -> (c_record c).[k] = v)).

Lemma csv_add_wp names f0 recs pend c e col : NoDup names -> csv_inv names f0 recs pend c ->
  wp (csv_add e col c) (csv_inv names f0 recs (pend ++ [(e, col)])).
Proof.
  intros ND (N & L1 & L2 & F & B & ST). unfold csv_add. cbv zeta. rewrite N.
  set (st := if c_busy c then c_status c else repeat false (length (c_status c))).
  assert (LS : length st = length names) by (unfold st; destruct (c_busy c); rewrite ?repeat_length; auto).
  assert (SS : forall k, k < length names -> (st.[k] = true <-> latest pend names.[k] <> None) /\ (forall v, latest pend names.[k] = Some v -> (c_record c).[k] = v)).
  { intros k Hk. unfold st. destruct (c_busy c) eqn:EB; [now apply ST|]. assert (pend = []) as -> by (destruct pend as [|q pend]; auto; exfalso; assert (false = true) by (apply B; discriminate); discriminate).
    rewrite aget_repeat by lia. cbn. split; [split; [discriminate|congruence]|discriminate]. }
  clearbody st. assert (PN : pend ++ [(e, col)] <> []) by (destruct pend; discriminate).
  destruct (find_index col names) as [i|] eqn:EI.
  - apply find_index_some in EI. destruct EI as (I1 & I2 & _). apply wp_bind. apply wp_wr; [lia|]. apply wp_bind. apply wp_wr; [lia|]. apply wp_ret.
    unfold csv_inv. cbn [c_names c_status c_record c_busy c_file]. rewrite !upd_length. splits; auto; [tauto|]. intros _ k Hk. rewrite latest_snoc.
    destruct (Nat.eq_dec k i) as [->|Nk].
    + rewrite !aget_upd_eq by lia. rewrite (proj2 (str_eqb_eq col names.[i]) (eq_sym I2)). split; [split; [discriminate|auto]|]. intros v Hv. congruence.
    + rewrite !aget_upd_ne by auto. assert (str_eqb col names.[k] = false) as ->; [|now apply SS].
      apply not_true_iff_false. rewrite str_eqb_eq. intros ->. apply Nk. apply (proj1 (NoDup_nth names []) ND); auto.
  - apply find_index_none in EI. apply wp_ret. unfold csv_inv. cbn [c_names c_status c_record c_busy c_file]. splits; auto; [tauto|]. intros _ k Hk. rewrite latest_snoc.
    assert (str_eqb col names.[k] = false) as ->; [|now apply SS]. apply not_true_iff_false. rewrite str_eqb_eq. intros ->. apply EI. apply nth_In. auto.
Qed.

Lemma csv_record_wp names f0 recs pend c : names <> [] -> csv_inv names f0 recs pend c ->
  wp (csv_record c) (fun c' => (exists vals, complete names pend vals /\ csv_inv names f0 (recs ++ [vals]) [] c') \/ ((forall vals, ~ complete names pend vals) /\ csv_inv names f0 recs pend c')).
Proof.
  intros NN IV. pose proof IV as (N & L1 & L2 & F & B & ST). assert (0 < length names) by (destruct names; [congruence|cbn; lia]). unfold csv_record. destruct (c_busy c) eqn:EB; cbn [negb].
  - rewrite N, scan_ok by lia. cbn [bind]. destruct (complete_check names pend (c_status c) (c_record c) L2 (ST eq_refl)) as (C1 & C2).
    destruct (forallb _ _); cbn [negb].
    + rewrite put_line_ok by (destruct (c_record c); [cbn in L2; lia|discriminate]). cbn [bind]. apply wp_ret. left. exists (c_record c). split; [auto|].
      unfold csv_inv. cbn [c_names c_status c_record c_busy c_file]. rewrite F, flat_map_app, <- app_assoc. cbn [flat_map]. rewrite app_nil_r. splits; auto; [|discriminate]. split; [discriminate|congruence].
    + apply wp_ret. right. split; [auto|exact IV].
  - apply wp_ret. right. split; [|exact IV]. intros vals (_ & C). assert (pend = []) as -> by (destruct pend as [|q pend]; auto; exfalso; assert (false = true) by (apply B; discriminate); discriminate).
    specialize (C 0 ltac:(lia)). discriminate.
Qed.

Lemma csv_run_wp names f0 ops c : names <> [] -> NoDup names -> csv_inv names f0 [] [] c ->
  wp (csv_run ops c) (fun c' => exists recs pend, log names ops recs pend /\ csv_inv names f0 recs pend c').
Proof.
  intros NN ND IV. unfold csv_run. apply (wp_foreach (fun pre c' => exists recs pend, log names pre recs pend /\ csv_inv names f0 recs pend c')).
  - exists [], []. split; [constructor|auto].
  - intros pre o post s _ (recs & pend & LG & I). destruct o as [e col|]; cbn [csv_step].
    + eapply wp_mono; [apply (csv_add_wp names f0 recs pend); auto|]. intros c' I'. exists recs, (pend ++ [(e, col)]). split; [now constructor|auto].
    + eapply wp_mono; [apply (csv_record_wp names f0 recs pend); auto|]. intros c' [(vals & C & I')|(C & I')]; [exists (recs ++ [vals]), []|exists recs, pend]; split; auto; econstructor; eauto.
  - auto.
Qed.

(** * C137 *)

(** A new file holds the header and one line for each complete record, with the last value given for each column since the
    record before; an incomplete record is not written but can be completed later. *)
Theorem C137_new_file : forall names force old ops, names <> [] -> NoDup names -> (old = None \/ force = true) ->
  exists c c' recs pend, csv_open names force old = Ok c /\ csv_run ops c = Ok c' /\ log names ops recs pend /\ c_file c' = line names ++ flat_map line recs.
Proof.
  intros names force old ops NN ND HF.
  assert (EO : csv_open names force old = Ok (mkCsv names (repeat false (length names)) (repeat [] (length names)) false (line names))).
  { unfold csv_open. destruct old as [f|]; [destruct HF as [HF| ->]; [discriminate|]|]; rewrite put_line_ok by auto; reflexivity. }
  rewrite EO. pose proof (csv_run_wp names (line names) ops _ NN ND (ltac:(unfold csv_inv; cbn [c_names c_status c_record c_busy c_file]; rewrite !repeat_length, app_nil_r; splits; auto; [split; [discriminate|congruence]|discriminate]) :
     csv_inv names (line names) [] [] (mkCsv names (repeat false (length names)) (repeat [] (length names)) false (line names)))) as G.
  apply wp_ok in G. destruct G as (c' & E & recs & pend & LG & I). do 4 eexists. splits; eauto. apply I.
Qed.
Print Assumptions C137_new_file.

(** Reopening a file appends the records; no header is written or compared. *)
Theorem C137_reopened : forall names f ops, names <> [] -> NoDup names ->
  exists c c' recs pend, csv_open names false (Some f) = Ok c /\ csv_run ops c = Ok c' /\ log names ops recs pend /\ c_file c' = f ++ flat_map line recs.
Proof.
  intros names f ops NN ND. pose proof (csv_run_wp names f ops _ NN ND (ltac:(unfold csv_inv; cbn [c_names c_status c_record c_busy c_file]; rewrite !repeat_length, app_nil_r; splits; auto; [split; [discriminate|congruence]|discriminate]) :
     csv_inv names f [] [] (mkCsv names (repeat false (length names)) (repeat [] (length names)) false f))) as G.
  apply wp_ok in G. destruct G as (c' & E & recs & pend & LG & I). do 4 eexists. splits; eauto; [reflexivity|apply I].
Qed.
Print Assumptions C137_reopened.

(** [log] describes one history only. *)
Lemma complete_unique names pend v v' : complete names pend v -> complete names pend v' -> v = v'.
Proof.
  intros (L & A) (L' & B). apply nth_ext with (d := []) (d' := []); [lia|]. intros k Hk. rewrite L in Hk. specialize (A k Hk). specialize (B k Hk). unfold aget, dflt, Dflt_list in A, B. congruence.
Qed.

Theorem C137_log_unique : forall names ops recs pend recs' pend', log names ops recs pend -> log names ops recs' pend' -> recs = recs' /\ pend = pend'.
Proof.
  intros names ops recs pend recs' pend' H. revert recs' pend'. induction H as [|ops recs pend e c H IH|ops recs pend vals H IH C|ops recs pend H IH C]; intros recs' pend' H'; inversion H' as [HE|o r p e' c' K HE|o r p v K K2 HE|o r p K K2 HE];
    try (apply (f_equal (@length csv_op)) in HE; rewrite ?app_length in HE; cbn in HE; lia); try (apply app_inj_tail in HE; destruct HE as (-> & HE)); try discriminate; auto.
  - injection HE as -> ->. destruct (IH _ _ K) as (-> & ->). auto.
  - destruct (IH _ _ K) as (-> & ->). subst. rewrite (complete_unique _ _ _ _ C K2). auto.
  - destruct (IH _ _ K) as (-> & ->). subst. exfalso. eapply K2; eauto.
  - destruct (IH _ _ K) as (-> & ->). subst. exfalso. eapply C; eauto.
Qed.
Print Assumptions C137_log_unique.

(** * Reading the file back *)

Fixpoint parse (s cur : str) (row : list str) : list (list str) :=
  match s with
  | [] => []
  | c :: s => if c =? newline then (row ++ [cur]) :: parse s [] []
              else if c =? comma then parse s [] (row ++ [cur]) else parse s (cur ++ [c]) row
  end.

Definition plain (x : str) : Prop := ~ In comma x /\ ~ In newline x.

Lemma parse_plain x s cur row : plain x -> parse (x ++ s) cur row = parse s (cur ++ x) row.
Proof.
  revert cur. induction x as [|c x IH]; intros cur (P1 & P2); [now rewrite app_nil_r|]. cbn [app parse]. cbn [In] in P1, P2.
  destruct (Nat.eqb_spec c newline) as [->|]; [tauto|]. destruct (Nat.eqb_spec c comma) as [->|]; [tauto|].
  rewrite IH by (split; tauto). now rewrite <- app_assoc.
Qed.

Lemma parse_line l s row : l <> [] -> Forall plain l -> parse (line l ++ s) [] row = (row ++ l) :: parse s [] [].
Proof.
  revert row. induction l as [|x l IH]; intros row Hl F; [congruence|]. inversion F as [|? ? F1 F2]; subst. destruct l as [|y l].
  - cbn [line]. rewrite <- app_assoc, parse_plain by auto. reflexivity.
  - change (line (x :: y :: l)) with (x ++ comma :: line (y :: l)). rewrite <- app_assoc, parse_plain by auto. cbn [app parse].
    change (comma =? newline) with false. change (comma =? comma) with true. cbn [app]. rewrite IH by (auto; discriminate). now rewrite <- app_assoc.
Qed.

Lemma log_plain names ops recs pend : names <> [] -> log names ops recs pend -> (forall e c, In (Add e c) ops -> plain e) ->
  Forall (fun r => r <> [] /\ Forall plain r) recs /\ Forall (fun p => plain (fst p)) pend.
Proof.
  intros NN H. induction H as [|ops recs pend e c H IH|ops recs pend vals H IH (L & C)|ops recs pend H IH C]; intros HP; [auto| | |apply IH; intros; eapply HP, in_or_app; eauto].
  - destruct IH as (I1 & I2); [intros; eapply HP, in_or_app; eauto|]. split; auto. apply Forall_app. split; auto. constructor; auto. eapply HP, in_or_app. right. left. reflexivity.
  - destruct IH as (I1 & I2); [intros; eapply HP, in_or_app; eauto|]. split; auto. apply Forall_app. split; auto. constructor; auto. split.
    + intros ->. destruct names; [congruence|discriminate].
    + apply Forall_forall. intros x Hx. apply In_nth with (d := []) in Hx. destruct Hx as (k & Hk & <-). rewrite L in Hk. specialize (C k Hk). revert C I2. unfold aget, dflt, Dflt_list. generalize (nth k vals []), (nth k names []). clear.
      intros v col. induction pend as [|[e c] r IH]; cbn [latest]; [discriminate|]. intros E F. inversion F as [|? ? F1 F2]; subst. destruct (latest r col); [apply IH; auto; congruence|]. destruct (str_eqb c col); [|discriminate]. injection E as <-. exact F1.
Qed.

(** If no name and no value contains a comma or a newline, splitting the file gives the header and the records. *)
Theorem C137_round_trip : forall names ops recs pend, names <> [] -> log names ops recs pend -> Forall plain names -> (forall e c, In (Add e c) ops -> plain e) ->
  parse (line names ++ flat_map line recs) [] [] = names :: recs.
Proof.
  intros names ops recs pend NN LG FN FE. rewrite parse_line by auto. cbn [app]. f_equal. apply log_plain in LG; auto. destruct LG as (F & _). clear - F.
  induction recs as [|r recs IH]; [reflexivity|]. inversion F as [|? ? (F1 & F2) F3]; subst. cbn [flat_map]. rewrite parse_line by auto. cbn [app]. now rewrite IH.
Qed.
Print Assumptions C137_round_trip.

(** Values are not quoted: one with a comma makes a line with more fields than the header. *)
Theorem C137_comma_refuted : ~ (forall names ops recs pend, names <> [] -> NoDup names -> log names ops recs pend -> parse (line names ++ flat_map line recs) [] [] = names :: recs).
Proof.
  intros H. specialize (H [[65];[66]] ([] ++ [Add [49;44;50] [65]] ++ [Add [51] [66]] ++ [Rec]) [[[49;44;50];[51]]] []). revert H. rewrite !app_assoc. intros H.
  assert (parse (line [[65];[66]] ++ flat_map line [[[49;44;50];[51]]]) [] [] = [[65];[66]] :: [[[49;44;50];[51]]]) as K; [|vm_compute in K; discriminate]. apply H.
  - discriminate.
  - repeat constructor; cbn; intuition discriminate.
  - apply (log_rec _ _ [] [([49;44;50],[65]);([51],[66])]).
    + apply (log_add _ _ [] [([49;44;50],[65])]). apply (log_add _ _ [] []). constructor.
    + split; [reflexivity|]. intros k Hk. cbn in Hk. do 2 (destruct k as [|k]; [reflexivity|]). lia.
Qed.
Print Assumptions C137_comma_refuted.

(** Two columns of one name: the second is never filled, so no record is ever written. *)
Theorem C137_duplicate_names : forall names i j f ops c, i < j < length names -> names.[i] = names.[j] ->
  csv_open names false (Some f) = Ok c -> exists c', csv_run ops c = Ok c' /\ c_file c' = f.
Proof.
  intros names i j f ops c Hij E EO. injection EO as <-. set (c0 := mkCsv _ _ _ _ _).
  assert (G : wp (csv_run ops c0) (fun c' => c_names c' = names /\ length (c_status c') = length names /\ length (c_record c') = length names /\ (c_status c').[j] = false /\ c_file c' = f)).
  { unfold csv_run. apply (wp_foreach (fun _ c' => c_names c' = names /\ length (c_status c') = length names /\ length (c_record c') = length names /\ (c_status c').[j] = false /\ c_file c' = f)).
    - unfold c0. cbn [c_names c_status c_record c_busy c_file]. rewrite !repeat_length, aget_repeat by lia. auto.
    - intros _ o _ s _ (N & L1 & L2 & J & F). destruct o as [e col|]; cbn [csv_step].
      + unfold csv_add. cbv zeta. rewrite N. set (st := if c_busy s then _ else _). assert (LS : length st = length names /\ st.[j] = false) by (unfold st; destruct (c_busy s); rewrite ?repeat_length, ?aget_repeat by lia; auto).
        destruct LS as (LS & SJ). clearbody st. destruct (find_index col names) as [k|] eqn:EI.
        * apply find_index_some in EI. destruct EI as (I1 & I2 & I3). apply wp_bind. apply wp_wr; [lia|]. apply wp_bind. apply wp_wr; [lia|]. apply wp_ret. cbn [c_names c_status c_record c_busy c_file].
          rewrite !upd_length. splits; auto. rewrite aget_upd_ne; auto. intros ->. apply (I3 i); [lia|]. congruence.
        * apply wp_ret. cbn. auto.
      + unfold csv_record. destruct (c_busy s); cbn [negb]; [|apply wp_ret; auto]. rewrite N, scan_ok by lia. cbn [bind].
        assert (forallb (fun i => (c_status s).[i]) (seq 0 (length names)) = false) as ->; [|apply wp_ret; auto]. apply not_true_iff_false. rewrite forallb_seq. intros H. specialize (H j ltac:(lia)). congruence.
    - auto. }
  apply wp_ok in G. destruct G as (c' & E' & _ & _ & _ & _ & F). exists c'. auto.
Qed.
Print Assumptions C137_duplicate_names.

(** Without columns the constructor already runs over the empty vector. *)
Theorem C137_no_columns : forall force, csv_open [] force None = Err OOB.
Proof. reflexivity. Qed.

Example C137_nonvacuous :
  let ops := [Add [49] [65]; Rec; Add [50] [65]; Add [51] [66]; Rec; Rec; Add [52] [90]; Rec] in
  exists recs pend, log [[65];[66]] ops recs pend /\ recs = [[[50];[51]]] /\ pend = [([52],[90])] /\
  (c <- csv_open [[65];[66]] false None ;; c' <- csv_run ops c ;; Ok (c_file c')) = Ok [65;44;66;10; 50;44;51;10].
Proof.
  cbv zeta. do 2 eexists. split; [|splits; [reflexivity..|vm_compute; reflexivity]].
  assert (N : forall pend, (exists k, k < 2 /\ latest pend ([[65];[66]] : list str).[k] = None) -> forall vals, ~ complete [[65];[66]] pend vals).
  { intros pend (k & Hk & E) vals (_ & C). rewrite C in E by auto. discriminate. }
  change [Add [49] [65]; Rec; Add [50] [65]; Add [51] [66]; Rec; Rec; Add [52] [90]; Rec] with ((((((((([] ++ [Add [49] [65]]) ++ [Rec]) ++ [Add [50] [65]]) ++ [Add [51] [66]]) ++ [Rec]) ++ [Rec]) ++ [Add [52] [90]]) ++ [Rec])).
  apply log_incomplete; [|apply N; exists 0; split; [lia|reflexivity]].
  apply (log_add _ _ _ []). apply log_incomplete; [|apply N; exists 0; split; [lia|reflexivity]].
  apply (log_rec _ _ [] [([49],[65]);([50],[65]);([51],[66])]).
  - apply (log_add _ _ _ [([49],[65]);([50],[65])]). apply (log_add _ _ _ [([49],[65])]). apply log_incomplete; [|apply N; exists 1; split; [lia|reflexivity]].
    apply (log_add _ _ _ []). constructor.
  - split; [reflexivity|]. intros k Hk. cbn in Hk. do 2 (destruct k as [|k]; [reflexivity|]). lia.
Qed.
